(** C129: reading the coefficient tables of the spherical matrices. *)
From Coq Require Import String Qreals QArith.
From Verif Require Import Py PyLemmas Legendre Cheb DGModel DGSpec DGProofs DGInt DGBalance DGFinal GmatModel MatModel
  SpherePoly SphereProofs SphereBal ReaderModel.
Open Scope R_scope.

(* ------------------------------------------------------------------ what a stored array gives *)
(** the array stored in a file under a name *)
Definition stored (h : h5 arr2) (name : string) (v : list R) : Prop :=
  exists g, coefficients h = Some g /\ g name = Some v.
(** it fills a row of k numbers: k entries, or one for all of them *)
Definition fits (k : nat) (v : list R) : Prop := length v = k \/ length v = 1%nat.
Definition entry (k : nat) (v : list R) (q : nat) : R :=
  if (length v =? k)%nat then nth q v 0 else if (q <? k)%nat then nth 0 v 0 else 0.
Definition has (h : h5 arr2) (k i j : nat) : Prop := exists v, stored h (element i j) v /\ fits k v.
Definition even_width (i j : nat) : bool := Nat.even (i + j).

Lemma par i j : ((i + j + 2) mod 2 =? 0)%nat = Nat.even (i + j).
Proof. apply par2. Qed.
Lemma dataset_ok h name v : dataset h name = Ok v <-> stored h name v.
Proof.
  unfold dataset, stored. split.
  - destruct (coefficients h) as [g|]; [|discriminate]. destruct (g name) as [w|] eqn:E; [|discriminate].
    injection 1 as <-. now exists g.
  - intros (g & -> & ->). reflexivity.
Qed.
Definition row (k : nat) (A : coef) (ii jj : nat) (v : list R) : coef :=
  fun i j q => if ((i =? ii) && (j =? jj))%nat then entry k v q else A i j q.
Lemma put_ok k A ii jj v B : put k A ii jj v = Ok B -> fits k v /\ forall i j q, B i j q = row k A ii jj v i j q.
Proof.
  unfold put, fits, row, entry. destruct (Nat.eqb_spec (length v) k) as [E|E].
  - injection 1 as <-. split; auto.
  - destruct v as [|x [|y w]]; try discriminate. injection 1 as <-. split; auto.
Qed.
Lemma put_fits k A ii jj v : fits k v -> exists B, put k A ii jj v = Ok B.
Proof.
  unfold put, fits. intros H. destruct (Nat.eqb_spec (length v) k) as [E|E]; [eexists; reflexivity|].
  destruct H as [H|H]; [contradiction|]. destruct v as [|x [|y w]]; try discriminate. eexists; reflexivity.
Qed.

Lemma entry_sound fm fJ fL c p c' : read_entry fm fJ fL c p = Ok c' ->
  let '(i, j) := p in
  (exists v, stored fJ (element i j) v /\ fits 2 v /\ forall a b q, c_J c' a b q = row 2 (c_J c) i j v a b q) /\
  (exists v, stored fm (element i j) v /\
    if even_width i j then fits 3 v /\ (forall a b q, c_mass_even c' a b q = row 3 (c_mass_even c) i j v a b q) /\ c_mass_odd c' = c_mass_odd c
    else fits 2 v /\ (forall a b q, c_mass_odd c' a b q = row 2 (c_mass_odd c) i j v a b q) /\ c_mass_even c' = c_mass_even c) /\
  (if (0 <? i)%nat then
    exists v, stored fL (element i j) v /\
    if even_width i j then fits 2 v /\ (forall a b q, c_L_even c' a b q = row 2 (c_L_even c) i j v a b q) /\ c_L_odd c' = c_L_odd c
    else fits 3 v /\ (forall a b q, c_L_odd c' a b q = row 3 (c_L_odd c) i j v a b q) /\ c_L_even c' = c_L_even c
   else c_L_even c' = c_L_even c /\ c_L_odd c' = c_L_odd c).
Proof.
  destruct p as [i j]. unfold read_entry, even_width. rewrite par.
  destruct (dataset fJ _) as [vJ|] eqn:EJ; cbn [bind]; [|discriminate]. apply dataset_ok in EJ.
  destruct (put 2 (c_J c) _ _ _) as [BJ|] eqn:PJ; cbn [bind]; [|discriminate]. apply put_ok in PJ. destruct PJ as [FJ PJ].
  destruct (Nat.even (i + j)) eqn:Ev.
  - destruct (dataset fm _) as [vM|] eqn:EM; cbn [bind]; [|discriminate]. apply dataset_ok in EM.
    destruct (put 3 _ _ _ _) as [BM|] eqn:PM; cbn [bind]; [|discriminate]. apply put_ok in PM. destruct PM as [FM PM].
    destruct (0 <? i)%nat.
    + destruct (dataset fL _) as [vL|] eqn:EL; cbn [bind]; [|discriminate]. apply dataset_ok in EL.
      destruct (put 2 (c_L_even c) _ _ _) as [BL|] eqn:PL; cbn [bind]; [|discriminate]. apply put_ok in PL. destruct PL as [FL PL].
      injection 1 as <-. cbn. split; [now exists vJ|]. split; [now exists vM|now exists vL].
    + cbn [bind]. injection 1 as <-. cbn. split; [now exists vJ|]. split; [now exists vM|auto].
  - destruct (dataset fm _) as [vM|] eqn:EM; cbn [bind]; [|discriminate]. apply dataset_ok in EM.
    destruct (put 2 (c_mass_odd c) _ _ _) as [BM|] eqn:PM; cbn [bind]; [|discriminate]. apply put_ok in PM. destruct PM as [FM PM].
    destruct (0 <? i)%nat.
    + destruct (dataset fL _) as [vL|] eqn:EL; cbn [bind]; [|discriminate]. apply dataset_ok in EL.
      destruct (put 3 _ _ _ _) as [BL|] eqn:PL; cbn [bind]; [|discriminate]. apply put_ok in PL. destruct PL as [FL PL].
      injection 1 as <-. cbn. split; [now exists vJ|]. split; [now exists vM|now exists vL].
    + cbn [bind]. injection 1 as <-. cbn. split; [now exists vJ|]. split; [now exists vM|auto].
Qed.
Definition has_all (fm fJ fL : h5 arr2) (i j : nat) : Prop :=
  has fJ 2 i j /\ has fm (if even_width i j then 3 else 2) i j /\
  ((0 < i)%nat -> has fL (if even_width i j then 2 else 3) i j).
Lemma entry_exists fm fJ fL c i j : has_all fm fJ fL i j -> exists c', read_entry fm fJ fL c (i, j) = Ok c'.
Proof.
  intros ((vJ & SJ & FJ) & (vM & SM & FM) & HL). unfold read_entry, even_width in *. rewrite par.
  apply dataset_ok in SJ. rewrite SJ. cbn [bind]. destruct (put_fits 2 (c_J c) i j vJ FJ) as (BJ & ->). cbn [bind].
  apply dataset_ok in SM. rewrite SM. cbn [bind].
  destruct (Nat.even (i + j)).
  - destruct (put_fits 3 (c_mass_even c) i j vM FM) as (BM & ->). cbn [bind].
    destruct (Nat.ltb_spec 0 i) as [H|H]; [|cbn [bind]; eexists; reflexivity].
    destruct (HL H) as (vL & SL & FL). apply dataset_ok in SL. rewrite SL. cbn [bind].
    destruct (put_fits 2 (c_L_even c) i j vL FL) as (BL & ->). eexists; reflexivity.
  - destruct (put_fits 2 (c_mass_odd c) i j vM FM) as (BM & ->). cbn [bind].
    destruct (Nat.ltb_spec 0 i) as [H|H]; [|cbn [bind]; eexists; reflexivity].
    destruct (HL H) as (vL & SL & FL). apply dataset_ok in SL. rewrite SL. cbn [bind].
    destruct (put_fits 3 (c_L_odd c) i j vL FL) as (BL & ->). eexists; reflexivity.
Qed.
Lemma stored_uniq h n v w : stored h n v -> stored h n w -> v = w.
Proof. intros (g & E & G) (g' & E' & G'). rewrite E in E'. injection E' as <-. rewrite G in G'. now injection G'. Qed.

Lemma pair_dec (x y : nat * nat) : {x = y} + {x <> y}.
Proof. decide equality; apply Nat.eq_dec. Qed.
(** what one array holds after the loops: the stored rows where they are read, what was there elsewhere *)
Definition holds (h : h5 arr2) (k : nat) (sel : nat -> nat -> bool) (A B : coef) (ps : list (nat * nat)) : Prop :=
  forall i j,
    (In (i, j) ps -> sel i j = true -> exists v, stored h (element i j) v /\ fits k v /\ forall q, B i j q = entry k v q) /\
    (~ In (i, j) ps \/ sel i j = false -> forall q, B i j q = A i j q).
Lemma holds_nil h k sel A : holds h k sel A A [].
Proof. intros i j. split; [intros []|auto]. Qed.
Lemma holds_cons h k sel A A1 B a b ps : holds h k sel A1 B ps ->
  (if sel a b then exists v, stored h (element a b) v /\ fits k v /\ (forall i j q, A1 i j q = row k A a b v i j q) else A1 = A) ->
  holds h k sel A B ((a, b) :: ps).
Proof.
  intros H S i j. destruct (H i j) as [H1 H2].
  destruct (in_dec pair_dec (i, j) ps) as [I|I].
  - split; [intros _; now apply H1|]. intros [N|N]; [exfalso; apply N; now right|]. intros q.
    rewrite H2 by auto. destruct (sel a b) eqn:Sab; [|now subst A1]. destruct S as (v & _ & _ & ->). unfold row.
    destruct (Nat.eqb_spec i a) as [->|]; [destruct (Nat.eqb_spec j b) as [->|]; [congruence|]|]; reflexivity.
  - split.
    + intros [E|I'] Sij; [|contradiction]. injection E as <- <-. rewrite Sij in S. destruct S as (v & S1 & F & E).
      exists v. split; [auto|split; [auto|]]. intros q. rewrite H2 by auto. rewrite E. unfold row. now rewrite !Nat.eqb_refl.
    + intros N q. rewrite H2 by auto. destruct (sel a b) eqn:Sab; [|now subst A1]. destruct S as (v & _ & _ & ->). unfold row.
      destruct (Nat.eqb_spec i a) as [->|]; [destruct (Nat.eqb_spec j b) as [->|]|]; try reflexivity.
      destruct N as [N|N]; [exfalso; apply N; now left|congruence].
Qed.

Definition is_even (i j : nat) : bool := even_width i j.
Definition is_odd (i j : nat) : bool := negb (even_width i j).
Definition L_even_at (i j : nat) : bool := (0 <? i)%nat && even_width i j.
Definition L_odd_at (i j : nat) : bool := (0 <? i)%nat && negb (even_width i j).
Lemma read_all_sound fm fJ fL ps : forall c c', read_all fm fJ fL ps c = Ok c' ->
  holds fJ 2 (fun _ _ => true) (c_J c) (c_J c') ps /\
  holds fm 3 is_even (c_mass_even c) (c_mass_even c') ps /\ holds fm 2 is_odd (c_mass_odd c) (c_mass_odd c') ps /\
  holds fL 2 L_even_at (c_L_even c) (c_L_even c') ps /\ holds fL 3 L_odd_at (c_L_odd c) (c_L_odd c') ps.
Proof.
  induction ps as [|[a b] ps IH]; intros c c'; cbn [read_all].
  - injection 1 as <-. split; [|split; [|split; [|split]]]; apply holds_nil.
  - destruct (read_entry fm fJ fL c (a, b)) as [c1|] eqn:E; cbn [bind]; [|discriminate]. intros H.
    apply entry_sound in E. destruct E as ((vJ & SJ & FJ & EJ) & (vM & SM & EM) & EL). destruct (IH _ _ H) as (I1 & I2 & I3 & I4 & I5).
    split; [|split; [|split; [|split]]]; (eapply holds_cons; [eassumption|]); unfold is_even, is_odd, L_even_at, L_odd_at; cbv beta.
    + now exists vJ.
    + destruct (even_width a b); [exists vM; tauto|tauto].
    + destruct (even_width a b); cbn [negb]; [tauto|exists vM; tauto].
    + destruct (0 <? a)%nat; cbn [andb]; [|tauto]. destruct EL as (vL & SL & EL). destruct (even_width a b); [exists vL; tauto|tauto].
    + destruct (0 <? a)%nat; cbn [andb]; [|tauto]. destruct EL as (vL & SL & EL). destruct (even_width a b); cbn [negb]; [tauto|exists vL; tauto].
Qed.
Lemma read_all_exists fm fJ fL ps : forall c, (forall i j, In (i, j) ps -> has_all fm fJ fL i j) ->
  exists c', read_all fm fJ fL ps c = Ok c'.
Proof.
  induction ps as [|[a b] ps IH]; intros c H; cbn [read_all]; [eexists; reflexivity|].
  destruct (entry_exists fm fJ fL c a b) as (c1 & ->); [apply H; now left|]. cbn [bind]. apply IH. intros. apply H. now right.
Qed.
Lemma read_all_has fm fJ fL ps : forall c c', read_all fm fJ fL ps c = Ok c' -> forall i j, In (i, j) ps -> has_all fm fJ fL i j.
Proof.
  intros c c' H i j I. apply read_all_sound in H. destruct H as (H1 & H2 & H3 & H4 & H5).
  destruct (proj1 (H1 i j) I eq_refl) as (v & S & F & _). split; [now exists v|]. clear H1 v S F.
  split.
  - destruct (even_width i j) eqn:E.
    + destruct (proj1 (H2 i j) I) as (v & S & F & _); [exact E|]. now exists v.
    + destruct (proj1 (H3 i j) I) as (v & S & F & _); [unfold is_odd; now rewrite E|]. now exists v.
  - intros P. destruct (even_width i j) eqn:E.
    + destruct (proj1 (H4 i j) I) as (v & S & F & _); [unfold L_even_at; rewrite E, andb_true_r; now apply Nat.ltb_lt|]. now exists v.
    + destruct (proj1 (H5 i j) I) as (v & S & F & _); [unfold L_odd_at; rewrite E, andb_true_r; now apply Nat.ltb_lt|]. now exists v.
Qed.
Lemma in_square n i j : In (i, j) (list_prod (seq 0 n) (seq 0 n)) <-> (i < n)%nat /\ (j < n)%nat.
Proof. rewrite in_prod_iff, !in_seq. lia. Qed.

(* ------------------------------------------------------------------ C129: when the reading succeeds *)
(** The five files open, hold their denominators, and the first three of the four matrices have every array they need, in a
    length that fits; the 'coefficients' of the G and VV files and row 0 of the L file are not needed. *)
Definition readable (fs : files) : Prop := exists fm fJ fG fL fV dm dJ dG dL dV,
  f_mass fs = Some fm /\ f_J fs = Some fJ /\ f_G fs = Some fG /\ f_L fs = Some fL /\ f_VV fs = Some fV /\
  denominators fm = Some dm /\ denominators fJ = Some dJ /\ denominators fG = Some dG /\ denominators fL = Some dL /\
  denominators fV = Some dV /\ a_rows dm <> 0%nat /\ z_1 dV <> 0%nat /\ z_2 dV <> 0%nat /\
  forall i j, (i < a_cols dm)%nat -> (j < a_cols dm)%nat ->
    has fJ 2 i j /\ has fm (if Nat.even (i + j) then 3 else 2) i j /\ ((0 < i)%nat -> has fL (if Nat.even (i + j) then 2 else 3) i j).

Lemma reader_inv fs g : file_reader fs = Ok g -> exists fm fJ fG fL fV dm dJ dG dL dV c,
  f_mass fs = Some fm /\ f_J fs = Some fJ /\ f_G fs = Some fG /\ f_L fs = Some fL /\ f_VV fs = Some fV /\
  denominators fm = Some dm /\ denominators fJ = Some dJ /\ denominators fG = Some dG /\ denominators fL = Some dL /\
  denominators fV = Some dV /\ a_rows dm <> 0%nat /\ z_1 dV <> 0%nat /\ z_2 dV <> 0%nat /\
  read_all fm fJ fL (list_prod (seq 0 (a_cols dm)) (seq 0 (a_cols dm))) no_coefs = Ok c /\
  g = {| g_size := a_cols dm; g_N := z_0 dV; g_mass := dm; g_J := dJ; g_G := dG; g_L := dL; g_VV := dV; g_coefs := c;
         g_G_coeff := fun _ _ _ => 0; g_VV_even := fun _ _ _ _ => 0; g_VV_odd := fun _ _ _ _ => 0 |}.
Proof.
  unfold file_reader, opened, denoms. intros H.
  destruct (f_mass fs) as [fm|] eqn:E1; cbn [bind] in H; [|discriminate]. destruct (f_J fs) as [fJ|] eqn:E2; cbn [bind] in H; [|discriminate].
  destruct (f_G fs) as [fG|] eqn:E3; cbn [bind] in H; [|discriminate]. destruct (f_L fs) as [fL|] eqn:E4; cbn [bind] in H; [|discriminate].
  destruct (f_VV fs) as [fV|] eqn:E5; cbn [bind] in H; [|discriminate].
  destruct (denominators fm) as [dm|] eqn:D1; cbn [bind] in H; [|discriminate]. destruct (denominators fJ) as [dJ|] eqn:D2; cbn [bind] in H; [|discriminate].
  destruct (denominators fG) as [dG|] eqn:D3; cbn [bind] in H; [|discriminate]. destruct (denominators fL) as [dL|] eqn:D4; cbn [bind] in H; [|discriminate].
  destruct (denominators fV) as [dV|] eqn:D5; cbn [bind] in H; [|discriminate].
  destruct (Nat.eqb_spec (a_rows dm) 0) as [|N0]; [discriminate|].
  destruct (Nat.eqb_spec (z_1 dV) 0) as [|N1]; [discriminate|]. destruct (Nat.eqb_spec (z_2 dV) 0) as [|N2]; [discriminate|]. cbn [orb] in H.
  destruct (read_all _ _ _ _ _) as [c|] eqn:RA; cbn [bind] in H; [|discriminate]. injection H as <-.
  exists fm, fJ, fG, fL, fV, dm, dJ, dG, dL, dV, c. auto 20.
Qed.
Theorem C129_succeeds_iff : forall fs, (exists g, file_reader fs = Ok g) <-> readable fs.
Proof.
  intros fs. split.
  - intros (g & H). apply reader_inv in H.
    destruct H as (fm & fJ & fG & fL & fV & dm & dJ & dG & dL & dV & c & E1 & E2 & E3 & E4 & E5 & D1 & D2 & D3 & D4 & D5 & N0 & N1 & N2 & RA & _).
    exists fm, fJ, fG, fL, fV, dm, dJ, dG, dL, dV. repeat (split; [assumption|]).
    intros i j Hi Hj. apply (read_all_has _ _ _ _ _ _ RA). now apply in_square.
  - intros (fm & fJ & fG & fL & fV & dm & dJ & dG & dL & dV & E1 & E2 & E3 & E4 & E5 & D1 & D2 & D3 & D4 & D5 & N0 & N1 & N2 & A).
    unfold file_reader, opened, denoms. rewrite E1, E2, E3, E4, E5. cbn [bind]. rewrite D1, D2, D3, D4, D5. cbn [bind].
    apply Nat.eqb_neq in N0, N1, N2. rewrite N0, N1, N2. cbn [orb].
    destruct (read_all_exists fm fJ fL (list_prod (seq 0 (a_cols dm)) (seq 0 (a_cols dm))) no_coefs) as (c & ->); [|eexists; reflexivity].
    intros i j I. apply in_square in I. now apply A.
Qed.
Print Assumptions C129_succeeds_iff.

(* ------------------------------------------------------------------ C129: what is handed on *)
(** row (i, j) of an array of the tables is the stored array *)
Definition row_is (h : h5 arr2) (k i j : nat) (A : coef) : Prop :=
  exists v, stored h (element i j) v /\ fits k v /\ forall q, (q < k)%nat -> A i j q = nth (if (length v =? 1)%nat then 0 else q) v 0.
Lemma entry_nth k v q : fits k v -> (q < k)%nat -> entry k v q = nth (if (length v =? 1)%nat then 0 else q) v 0.
Proof.
  unfold fits, entry. intros [H|H] Hq.
  - rewrite H, Nat.eqb_refl. destruct (Nat.eqb_spec k 1) as [->|]; auto. now replace q with 0%nat by lia.
  - rewrite H, (Nat.eqb_refl 1). destruct (Nat.eqb_spec 1 k) as [<-|]; [now replace q with 0%nat by lia|]. apply Nat.ltb_lt in Hq. now rewrite Hq.
Qed.
Theorem C129_tables_hold_the_files : forall fs g, file_reader fs = Ok g -> exists fm fJ fL,
  f_mass fs = Some fm /\ f_J fs = Some fJ /\ f_L fs = Some fL /\
  denominators fm = Some (g_mass g) /\ denominators fJ = Some (g_J g) /\ denominators fL = Some (g_L g) /\
  forall i j, (i < g_size g)%nat -> (j < g_size g)%nat ->
    row_is fJ 2 i j (J_coeff (to_tables g)) /\
    (Nat.even (i + j) = true -> row_is fm 3 i j (Mass_coeff_even (to_tables g))) /\
    (Nat.even (i + j) = false -> row_is fm 2 i j (Mass_coeff_odd (to_tables g))) /\
    ((0 < i)%nat -> Nat.even (i + j) = true -> row_is fL 2 i j (L_coeff_even (to_tables g))) /\
    ((0 < i)%nat -> Nat.even (i + j) = false -> row_is fL 3 i j (L_coeff_odd (to_tables g))).
Proof.
  intros fs g H. apply reader_inv in H.
  destruct H as (fm & fJ & fG & fL & fV & dm & dJ & dG & dL & dV & c & E1 & E2 & E3 & E4 & E5 & D1 & D2 & D3 & D4 & D5 & N0 & N1 & N2 & RA & ->).
  exists fm, fJ, fL. cbn [g_mass g_J g_L g_size to_tables g_coefs J_coeff Mass_coeff_even Mass_coeff_odd L_coeff_even L_coeff_odd].
  repeat (split; [assumption|]). intros i j Hi Hj. assert (I : In (i, j) (list_prod (seq 0 (a_cols dm)) (seq 0 (a_cols dm)))) by now apply in_square.
  apply read_all_sound in RA. destruct RA as (H1 & H2 & H3 & H4 & H5).
  assert (K : forall h k sel A B, holds h k sel A B (list_prod (seq 0 (a_cols dm)) (seq 0 (a_cols dm))) -> sel i j = true -> row_is h k i j B).
  { intros h k sel A B Hh S. destruct (proj1 (Hh i j) I S) as (v & Sv & F & E). exists v. split; [auto|split; [auto|]].
    intros q Hq. rewrite E. now apply entry_nth. }
  split; [eapply K; [exact H1|reflexivity]|].
  split; [intros Ev; eapply K; [exact H2|exact Ev]|].
  split; [intros Ev; eapply K; [exact H3|unfold is_odd, even_width; now rewrite Ev]|].
  split; intros P Ev; apply Nat.ltb_lt in P.
  - eapply K; [exact H4|]. unfold L_even_at, even_width. now rewrite P, Ev.
  - eapply K; [exact H5|]. unfold L_odd_at, even_width. now rewrite P, Ev.
Qed.
Print Assumptions C129_tables_hold_the_files.
(** everything else is zero: the other parity, row 0 of L, all of G and VV *)
Theorem C129_rest_is_zero : forall fs g, file_reader fs = Ok g -> forall i j q n,
  (Nat.even (i + j) = false -> Mass_coeff_even (to_tables g) i j q = 0) /\
  (Nat.even (i + j) = true -> Mass_coeff_odd (to_tables g) i j q = 0) /\
  (Nat.even (i + j) = false -> L_coeff_even (to_tables g) i j q = 0) /\
  (Nat.even (i + j) = true -> L_coeff_odd (to_tables g) i j q = 0) /\
  L_coeff_even (to_tables g) 0 j q = 0 /\ L_coeff_odd (to_tables g) 0 j q = 0 /\
  g_G_coeff g i j q = 0 /\ g_VV_even g n i j q = 0 /\ g_VV_odd g n i j q = 0.
Proof.
  intros fs g H. apply reader_inv in H.
  destruct H as (fm & fJ & fG & fL & fV & dm & dJ & dG & dL & dV & c & E1 & E2 & E3 & E4 & E5 & D1 & D2 & D3 & D4 & D5 & N0 & N1 & N2 & RA & ->).
  intros i j q n. cbn [to_tables g_coefs J_coeff Mass_coeff_even Mass_coeff_odd L_coeff_even L_coeff_odd g_G_coeff g_VV_even g_VV_odd].
  apply read_all_sound in RA. destruct RA as (H1 & H2 & H3 & H4 & H5).
  split; [intros Ev; rewrite (proj2 (H2 i j)) by (right; exact Ev); reflexivity|].
  split; [intros Ev; rewrite (proj2 (H3 i j)) by (right; unfold is_odd, even_width; now rewrite Ev); reflexivity|].
  split; [intros Ev; rewrite (proj2 (H4 i j)) by (right; unfold L_even_at, even_width; rewrite Ev; apply andb_false_r); reflexivity|].
  split; [intros Ev; rewrite (proj2 (H5 i j)) by (right; unfold L_odd_at, even_width; rewrite Ev; apply andb_false_r); reflexivity|].
  split; [rewrite (proj2 (H4 0%nat j)) by (right; reflexivity); reflexivity|].
  split; [rewrite (proj2 (H5 0%nat j)) by (right; reflexivity); reflexivity|]. auto.
Qed.
Print Assumptions C129_rest_is_zero.

(* ------------------------------------------------------------------ C129: the names *)
Definition all_pairs (n : nat) : list (nat * nat) := list_prod (seq 0 n) (seq 0 n).
Definition same (p q : nat * nat) : bool := (Nat.eqb (fst p) (fst q)) && (Nat.eqb (snd p) (snd q)).
Lemma same_ok p q : same p q = true -> p = q.
Proof. destruct p, q. unfold same. cbn. intros H. apply andb_prop in H. destruct H as [A B]. apply Nat.eqb_eq in A, B. now subst. Qed.
Definition corner (p q : nat * nat) : bool := (same p (0, 10)%nat && same q (10, 0)%nat) || (same p (10, 0)%nat && same q (0, 10)%nat).
Definition second (p q : nat * nat) : bool := (same p (0, 11)%nat && same q (10, 1)%nat) || (same p (10, 1)%nat && same q (0, 11)%nat).
Lemma twelve_check : forallb (fun p => forallb (fun q => implb (String.eqb (element (fst p) (snd p)) (element (fst q) (snd q))) (same p q || corner p q || second p q))
  (all_pairs 12)) (all_pairs 12) = true.
Proof. vm_compute. reflexivity. Qed.
(** up to size 12 two entries have the same name only if they are (0, 10) and (10, 0), or (0, 11) and (10, 1) *)
Theorem C129_clashes_up_to_twelve : forall i j i' j', (i < 12)%nat -> (j < 12)%nat -> (i' < 12)%nat -> (j' < 12)%nat ->
  element i j = element i' j' ->
  (i = i' /\ j = j') \/
  (i = 0 /\ j = 10 /\ i' = 10 /\ j' = 0)%nat \/ (i = 10 /\ j = 0 /\ i' = 0 /\ j' = 10)%nat \/
  (i = 0 /\ j = 11 /\ i' = 10 /\ j' = 1)%nat \/ (i = 10 /\ j = 1 /\ i' = 0 /\ j' = 11)%nat.
Proof.
  intros i j i' j' Hi Hj Hi' Hj' E. pose proof twelve_check as C. rewrite forallb_forall in C.
  specialize (C (i, j) (proj2 (in_square 12 i j) (conj Hi Hj))). rewrite forallb_forall in C.
  specialize (C (i', j') (proj2 (in_square 12 i' j') (conj Hi' Hj'))). cbn [fst snd] in C. rewrite E, String.eqb_refl in C. cbn [implb] in C.
  apply orb_prop in C. destruct C as [C|C]; [apply orb_prop in C; destruct C as [C|C]; [apply same_ok in C; injection C as <- <-; auto|]|]; right;
  apply orb_prop in C; destruct C as [C|C]; apply andb_prop in C; destruct C as [C1 C2]; apply same_ok in C1, C2;
    injection C1 as -> ->; injection C2 as -> ->; auto 10.
Qed.
Print Assumptions C129_clashes_up_to_twelve.
Theorem C129_names_distinct_iff : forall n,
  (forall i j i' j', (i < n)%nat -> (j < n)%nat -> (i' < n)%nat -> (j' < n)%nat -> element i j = element i' j' -> i = i' /\ j = j') <->
  (n <= 10)%nat.
Proof.
  intros n. split.
  - intros H. destruct (le_lt_dec n 10) as [|L]; auto. exfalso.
    destruct (H 0%nat 10%nat 10%nat 0%nat); try lia. reflexivity.
  - intros L i j i' j' Hi Hj Hi' Hj' E.
    destruct (C129_clashes_up_to_twelve i j i' j') as [?|[?|[?|[?|?]]]]; lia || auto.
Qed.
Print Assumptions C129_names_distinct_iff.
Example C129_names_example : element 0 11 = "Element112"%string /\ element 10 1 = "Element112"%string /\ element 3 4 = "Element45"%string.
Proof. repeat split. Qed.

(* ------------------------------------------------------------------ C129: exact files up to size 12 *)
Lemma al_sym p i j : Q2R (al p i j) = Q2R (al p j i).
Proof. eapply int_uniq2; [apply al_ok|]. eapply int_ext; [|apply al_ok]. intro z. cbv beta. ring. Qed.
Lemma q_is x y : (x == y)%Q -> Q2R x = Q2R y. Proof. apply Qeq_eqR. Qed.
Definition group (ps : list (nat * nat)) (A : nat -> nat -> list R) : string -> option (list R) := fun name =>
  match find (fun p => String.eqb (element (fst p) (snd p)) name) ps with Some p => Some (A (fst p) (snd p)) | None => None end.
Definition ones (n : nat) : arr2 := {| a_rows := 1; a_cols := n; a_at := fun _ _ => 1%Z |}.
(** denominators by which (0, 11) and (10, 1) can share one array *)
Definition dn (i j : nat) : Z := if same (i, j) (0, 11)%nat then 97%Z else if same (i, j) (10, 1)%nat then 77%Z else 1%Z.
Definition shared (n : nat) : arr2 := {| a_rows := 1; a_cols := n; a_at := dn |}.
Lemma dn_nz i j : IZR (dn i j) <> 0.
Proof. unfold dn. destruct (same _ _); [lra|]. destruct (same _ _); lra. Qed.
Definition ideal_mass_row (i j : nat) : list R :=
  if Nat.even (i + j) then map (fun q => IZR (dn i j) * Mass_coeff_even ideal i j q) [0; 1; 2]%nat
  else map (fun q => IZR (dn i j) * Mass_coeff_odd ideal i j q) [0; 1]%nat.
Definition ideal_J_row (i j : nat) : list R := map (fun q => IZR (dn i j) * J_coeff ideal i j q) [0; 1]%nat.
Definition ideal_L_row (i j : nat) : list R :=
  if Nat.even (i + j) then map (L_coeff_even ideal i j) [0; 1]%nat else map (L_coeff_odd ideal i j) [0; 1; 2]%nat.
Definition below_first (n : nat) : list (nat * nat) := filter (fun p => 0 <? fst p)%nat (all_pairs n).
Definition h_of (d : arr2) (ps : list (nat * nat)) (A : nat -> nat -> list R) : h5 arr2 :=
  {| denominators := Some d; coefficients := Some (group ps A) |}.
Definition ideal_files (n : nat) : files := {|
  f_mass := Some (h_of (shared n) (all_pairs n) ideal_mass_row); f_J := Some (h_of (shared n) (all_pairs n) ideal_J_row);
  f_G := Some {| denominators := Some (ones n); coefficients := None |};
  f_L := Some (h_of (ones n) (below_first n) ideal_L_row);
  f_VV := Some {| denominators := Some {| z_0 := 1; z_1 := 1; z_2 := 1; z_at := fun _ _ _ => 1%Z |}; coefficients := None |} |}.

Lemma group_finds ps A i j : In (i, j) ps -> (forall a b, In (a, b) ps -> element a b = element i j -> A a b = A i j) ->
  group ps A (element i j) = Some (A i j).
Proof.
  intros I H. unfold group. destruct (find _ ps) as [[a b]|] eqn:F.
  - apply find_some in F. destruct F as [Ia E]. cbn [fst snd] in *. apply String.eqb_eq in E. f_equal. now apply H.
  - exfalso. apply (find_none _ _ F (i, j)) in I. cbn [fst snd] in I. rewrite String.eqb_refl in I. discriminate.
Qed.
Lemma mass_row_sym : ideal_mass_row 0 10 = ideal_mass_row 10 0.
Proof.
  unfold ideal_mass_row. cbn [Nat.add Nat.even map]. cbn [Mass_coeff_even ideal]. rewrite (al_sym 0 0 10), (al_sym 2 0 10).
  replace (sqrt_two_mass_func 0 10) with (sqrt_two_mass_func 10 0) by reflexivity. unfold rn. cbn [Nat.eqb]. now rewrite (Rmult_comm 1 (sqrt 2)).
Qed.
Lemma J_row_sym : ideal_J_row 0 10 = ideal_J_row 10 0.
Proof.
  unfold ideal_J_row. cbn [map]. cbn [J_coeff ideal]. rewrite (al_sym 0 0 10), (al_sym 1 0 10).
  unfold rn. cbn [Nat.eqb xorb]. now rewrite (Rmult_comm 1 (sqrt 2)).
Qed.
Lemma al_0_11 : Q2R (al 1 0 11) = - 2 / 117. Proof. rewrite (q_is (al 1 0 11) (-2 # 117)) by (vm_compute; reflexivity). unfold Q2R. simpl. field. Qed.
Lemma al_10_1 : Q2R (al 1 10 1) = - 194 / 9009. Proof. rewrite (q_is (al 1 10 1) (-194 # 9009)) by (vm_compute; reflexivity). unfold Q2R. simpl. field. Qed.
Lemma s2s2 : sqrt 2 * sqrt 2 = 2. Proof. apply sqrt_sqrt. lra. Qed.
Lemma mass_row_shared : ideal_mass_row 0 11 = ideal_mass_row 10 1.
Proof.
  unfold ideal_mass_row. cbn [Nat.add Nat.even map]. cbn [Mass_coeff_odd ideal]. rewrite al_0_11, al_10_1.
  replace (sqrt_two_mass_func 0 11) with (1 / sqrt 2) by reflexivity. replace (sqrt_two_mass_func 10 1) with 1 by reflexivity.
  replace (dn 0 11) with 97%Z by reflexivity. replace (dn 10 1) with 77%Z by reflexivity. unfold rn. cbn [Nat.eqb].
  rewrite s2s2. pose proof sqrt2_nz. replace (1 / 2 * (1 * sqrt 2) / (1 / sqrt 2)) with (1 / 2 * (sqrt 2 * sqrt 2)) by (field; auto). rewrite s2s2.
  apply (f_equal2 cons); [field|apply (f_equal2 cons); [field|reflexivity]].
Qed.
Lemma J_row_shared : ideal_J_row 0 11 = ideal_J_row 10 1.
Proof.
  unfold ideal_J_row. cbn [map]. cbn [J_coeff ideal]. rewrite al_0_11, al_10_1.
  rewrite (q_is (al 0 0 11) 0), (q_is (al 0 10 1) 0) by (vm_compute; reflexivity).
  replace (Q2R 0) with 0 by (unfold Q2R; simpl; field).
  replace (dn 0 11) with 97%Z by reflexivity. replace (dn 10 1) with 77%Z by reflexivity. unfold rn. cbn [Nat.eqb xorb].
  rewrite s2s2. replace (1 / 2 * (1 * sqrt 2) * sqrt 2) with (1 / 2 * (sqrt 2 * sqrt 2)) by ring. rewrite s2s2.
  apply (f_equal2 cons); [field|apply (f_equal2 cons); [field|reflexivity]].
Qed.
Lemma h_stored d ps A i j : In (i, j) ps -> (forall a b, In (a, b) ps -> element a b = element i j -> A a b = A i j) ->
  stored (h_of d ps A) (element i j) (A i j).
Proof. intros I H. exists (group ps A). split; [reflexivity|]. now apply group_finds. Qed.
Lemma mass_stored n i j : (n <= 12)%nat -> (i < n)%nat -> (j < n)%nat ->
  stored (h_of (shared n) (all_pairs n) ideal_mass_row) (element i j) (ideal_mass_row i j).
Proof.
  intros Hn Hi Hj. apply h_stored; [now apply in_square|]. intros a b I E. apply in_square in I.
  destruct (C129_clashes_up_to_twelve a b i j) as [[-> ->]|[(-> & -> & -> & ->)|[(-> & -> & -> & ->)|[(-> & -> & -> & ->)|(-> & -> & -> & ->)]]]];
    try lia; auto using mass_row_sym, mass_row_shared, eq_sym.
Qed.
Lemma J_stored n i j : (n <= 12)%nat -> (i < n)%nat -> (j < n)%nat ->
  stored (h_of (shared n) (all_pairs n) ideal_J_row) (element i j) (ideal_J_row i j).
Proof.
  intros Hn Hi Hj. apply h_stored; [now apply in_square|]. intros a b I E. apply in_square in I.
  destruct (C129_clashes_up_to_twelve a b i j) as [[-> ->]|[(-> & -> & -> & ->)|[(-> & -> & -> & ->)|[(-> & -> & -> & ->)|(-> & -> & -> & ->)]]]];
    try lia; auto using J_row_sym, J_row_shared, eq_sym.
Qed.
Lemma L_stored n i j : (n <= 12)%nat -> (0 < i < n)%nat -> (j < n)%nat ->
  stored (h_of (ones n) (below_first n) ideal_L_row) (element i j) (ideal_L_row i j).
Proof.
  intros Hn Hi Hj. apply h_stored.
  - apply filter_In. split; [apply in_square; lia|]. cbn [fst]. apply Nat.ltb_lt. lia.
  - intros a b I E. apply filter_In in I. cbn [fst] in I. destruct I as [I P]. apply Nat.ltb_lt in P. apply in_square in I.
    destruct (C129_clashes_up_to_twelve a b i j) as [[-> ->]|[?|[?|[?|?]]]]; try lia; auto.
Qed.
Theorem C129_exact_files_up_to_twelve : forall n, (n <= 12)%nat -> exists fs g, file_reader fs = Ok g /\ g_size g = n /\
  forall a b, a < b -> mass_exact (to_tables g) n a b /\ J_exact (to_tables g) n a b /\ L_exact (to_tables g) n a b.
Proof.
  intros n Hn. exists (ideal_files n).
  assert (Rd : readable (ideal_files n)).
  { unfold readable, ideal_files. cbn [f_mass f_J f_G f_L f_VV].
    do 10 eexists. do 5 (split; [reflexivity|]). do 5 (split; [reflexivity|]). cbn [a_rows ones shared z_1 z_2 a_cols].
    do 3 (split; [discriminate|]). intros i j Hi Hj.
    split; [exists (ideal_J_row i j); split; [now apply J_stored|now left]|].
    split; [exists (ideal_mass_row i j); split; [now apply mass_stored|unfold ideal_mass_row; destruct (Nat.even (i + j)); now left]|].
    intros P. exists (ideal_L_row i j). split; [apply L_stored; lia|]. unfold ideal_L_row. destruct (Nat.even (i + j)); now left. }
  apply C129_succeeds_iff in Rd. destruct Rd as (g & Hg). exists g. split; [exact Hg|].
  assert (Sz : g_size g = n /\ a_at (g_mass g) = dn /\ a_at (g_J g) = dn /\ a_at (g_L g) = (fun _ _ => 1%Z)).
  { apply reader_inv in Hg. destruct Hg as (fm & fJ & fG & fL & fV & dm & dJ & dG & dL & dV & c & E1 & E2 & E3 & E4 & E5 & D1 & D2 & D3 & D4 & D5 & N0 & N1 & N2 & RA & ->).
    cbn in E1, E2, E4. injection E1 as <-. injection E2 as <-. injection E4 as <-. cbn in D1, D2, D4. injection D1 as <-. injection D2 as <-. injection D4 as <-.
    auto. }
  destruct Sz as (Sz & Dm & DJ & DL). split; [exact Sz|].
  destruct (C129_tables_hold_the_files _ _ Hg) as (fm & fJ & fL & E1 & E2 & E3 & _ & _ & _ & V). rewrite Sz in V.
  cbn in E1, E2, E3. injection E1 as <-. injection E2 as <-. injection E3 as <-.
  fold (all_pairs n) in V.
  assert (VM : forall i j, (i < n)%nat -> (j < n)%nat ->
     (Nat.even (i + j) = true -> forall q, (q < 3)%nat -> Mass_coeff_even (to_tables g) i j q = IZR (dn i j) * Mass_coeff_even ideal i j q) /\
     (Nat.even (i + j) = false -> forall q, (q < 2)%nat -> Mass_coeff_odd (to_tables g) i j q = IZR (dn i j) * Mass_coeff_odd ideal i j q) /\
     (forall q, (q < 2)%nat -> J_coeff (to_tables g) i j q = IZR (dn i j) * J_coeff ideal i j q) /\
     ((0 < i)%nat -> Nat.even (i + j) = true -> forall q, (q < 2)%nat -> L_coeff_even (to_tables g) i j q = L_coeff_even ideal i j q) /\
     ((0 < i)%nat -> Nat.even (i + j) = false -> forall q, (q < 3)%nat -> L_coeff_odd (to_tables g) i j q = L_coeff_odd ideal i j q)).
  { intros i j Hi Hj. destruct (V i j Hi Hj) as (V1 & V2 & V3 & V4 & V5).
    split; [|split; [|split; [|split]]].
    - intros Ev q Hq. destruct (V2 Ev) as (v & S & _ & E). rewrite (E q Hq). rewrite (stored_uniq _ _ _ _ S (mass_stored n i j Hn Hi Hj)).
      unfold ideal_mass_row. rewrite Ev. do 3 (destruct q as [|q]; [reflexivity|]). lia.
    - intros Ev q Hq. destruct (V3 Ev) as (v & S & _ & E). rewrite (E q Hq). rewrite (stored_uniq _ _ _ _ S (mass_stored n i j Hn Hi Hj)).
      unfold ideal_mass_row. rewrite Ev. do 2 (destruct q as [|q]; [reflexivity|]). lia.
    - intros q Hq. destruct V1 as (v & S & _ & E). rewrite (E q Hq). rewrite (stored_uniq _ _ _ _ S (J_stored n i j Hn Hi Hj)).
      do 2 (destruct q as [|q]; [reflexivity|]). lia.
    - intros P Ev q Hq. destruct (V4 P Ev) as (v & S & _ & E). rewrite (E q Hq). rewrite (stored_uniq _ _ _ _ S (L_stored n i j Hn (conj P Hi) Hj)).
      unfold ideal_L_row. rewrite Ev. do 2 (destruct q as [|q]; [reflexivity|]). lia.
    - intros P Ev q Hq. destruct (V5 P Ev) as (v & S & _ & E). rewrite (E q Hq). rewrite (stored_uniq _ _ _ _ S (L_stored n i j Hn (conj P Hi) Hj)).
      unfold ideal_L_row. rewrite Ev. do 3 (destruct q as [|q]; [reflexivity|]). lia. }
  clear V. intros a b Hab. split; [|split]; intros i j Hi Hj; destruct (VM i j Hi Hj) as (V1 & V2 & V3 & V4 & V5).
  - replace (make_mass_sphere (to_tables g) a b i j) with (make_mass_sphere ideal a b i j); [now apply (ideal_mass n)|].
    unfold make_mass_sphere. replace (Mass_denom (to_tables g) i j) with (dn i j) by (cbn [to_tables Mass_denom]; now rewrite Dm).
    replace (Mass_denom ideal i j) with 1%Z by reflexivity. pose proof (dn_nz i j) as Z. pose proof PI_neq0 as Z'.
    rewrite par2. destruct (Nat.even (i + j)) eqn:Ev; cbn [orb].
    + rewrite !V1 by (auto; lia). field. auto.
    + destruct (Nat.eqb_spec i 0) as [->|]; [destruct (Nat.eqb_spec j 0) as [->|]; [discriminate|]|]; cbn [andb]; rewrite !V2 by (auto; lia); field; auto.
  - replace (make_J_sphere (to_tables g) a b i j) with (make_J_sphere ideal a b i j); [now apply (ideal_J n)|].
    unfold make_J_sphere. replace (J_denom (to_tables g) i j) with (dn i j) by (cbn [to_tables J_denom]; now rewrite DJ).
    replace (J_denom ideal i j) with 1%Z by reflexivity. pose proof (dn_nz i j) as Z. pose proof PI_neq0 as Z'. pose proof sqrt2_nz as Z2.
    rewrite !V3 by lia. destruct (i =? 0)%nat, (j =? 0)%nat; cbn [andb negb]; field; auto.
  - replace (make_L_sphere (to_tables g) a b i j) with (make_L_sphere ideal a b i j); [now apply (ideal_L n)|].
    unfold make_L_sphere. replace (L_denom (to_tables g) i j) with 1%Z by (cbn [to_tables L_denom]; now rewrite DL).
    destruct (Nat.eqb_spec i 0) as [->|P]; [reflexivity|]. rewrite par2. destruct (Nat.even (i + j)) eqn:Ev; cbn [negb].
    + rewrite !V4 by (auto; lia). reflexivity.
    + rewrite !V5 by (auto; lia). reflexivity.
Qed.
Print Assumptions C129_exact_files_up_to_twelve.

(* ------------------------------------------------------------------ C129: no exact files from size 13 on *)
Lemma mass_value T n i j a b : a < b -> (i < n)%nat -> (j < n)%nat -> mass_exact T n a b -> make_mass_sphere T a b i j = Mform i j a b / PI.
Proof. intros H Hi Hj E. eapply int_uniq2; [apply E; auto|now apply mass_is]. Qed.
Lemma aq_0_12 m k : Aq m k 0 12 = - 2 / 143 * m ^ 2 - 94 / 6435 * k ^ 2.
Proof.
  unfold Aq. rewrite (q_is (al 0 0 12) (-2 # 143)), (q_is (al 1 0 12) 0), (q_is (al 2 0 12) (-94 # 6435)) by (vm_compute; reflexivity).
  unfold Q2R. simpl. field.
Qed.
Lemma aq_10_2 m k : Aq m k 10 2 = - 206 / 9009 * m ^ 2 - 34 / 1365 * k ^ 2.
Proof.
  unfold Aq. rewrite (q_is (al 0 10 2) (-206 # 9009)), (q_is (al 1 10 2) 0), (q_is (al 2 10 2) (-34 # 1365)) by (vm_compute; reflexivity).
  unfold Q2R. simpl. field.
Qed.
(** the entries (0, 12) and (10, 2) are read from one array; no scaling makes it both *)
Theorem C129_no_exact_files_from_thirteen : forall fs g, file_reader fs = Ok g -> (13 <= g_size g)%nat ->
  ~ (mass_exact (to_tables g) 13 0 1 /\ mass_exact (to_tables g) 13 1 2).
Proof.
  intros fs g Hg Hn [H1 H2]. destruct (C129_tables_hold_the_files _ _ Hg) as (fm & fJ & fL & E1 & E2 & E3 & _ & _ & _ & V).
  destruct (V 0%nat 12%nat) as (_ & VA & _); try lia. destruct (VA eq_refl) as (v & Sv & _ & Ev). clear VA.
  destruct (V 10%nat 2%nat) as (_ & VB & _); try lia. destruct (VB eq_refl) as (w & Sw & _ & Ew). clear VB V.
  assert (v = w) as <- by (eapply stored_uniq; [exact Sv|]; exact Sw).
  assert (EQ : forall q, (q < 3)%nat -> Mass_coeff_even (to_tables g) 10 2 q = Mass_coeff_even (to_tables g) 0 12 q)
    by (intros q Hq; now rewrite Ev, Ew).
  pose proof (mass_value _ 13 0 12 0 1 ltac:(lra) ltac:(lia) ltac:(lia) H1) as A1.
  pose proof (mass_value _ 13 0 12 1 2 ltac:(lra) ltac:(lia) ltac:(lia) H2) as A2.
  pose proof (mass_value _ 13 10 2 0 1 ltac:(lra) ltac:(lia) ltac:(lia) H1) as B1.
  pose proof (mass_value _ 13 10 2 1 2 ltac:(lra) ltac:(lia) ltac:(lia) H2) as B2.
  clear H1 H2 Ev Ew.
  assert (F : forall a b, make_mass_sphere (to_tables g) a b 0 12 =
     (Mass_coeff_even (to_tables g) 0 12 0 * a ^ 2 + Mass_coeff_even (to_tables g) 0 12 1 * (a * b) + Mass_coeff_even (to_tables g) 0 12 2 * b ^ 2)
     * sqrt 2 / PI * (1 / IZR (Mass_denom (to_tables g) 0 12))) by reflexivity.
  assert (G : forall a b, make_mass_sphere (to_tables g) a b 10 2 =
     (Mass_coeff_even (to_tables g) 10 2 0 * a ^ 2 + Mass_coeff_even (to_tables g) 10 2 1 * (a * b) + Mass_coeff_even (to_tables g) 10 2 2 * b ^ 2)
     * 1 / PI * (1 / IZR (Mass_denom (to_tables g) 10 2))) by reflexivity.
  rewrite F in A1, A2. rewrite G, !EQ in B1, B2 by lia. clear F G EQ.
  unfold Mform in A1, A2, B1, B2. rewrite aq_0_12 in A1, A2. rewrite aq_10_2 in B1, B2.
  unfold rn in A1, A2, B1, B2. cbn [Nat.eqb] in A1, A2, B1, B2. rewrite sqrt_sqrt in B1, B2 by lra.
  set (X := Mass_coeff_even (to_tables g) 0 12 0 * 0 ^ 2 + Mass_coeff_even (to_tables g) 0 12 1 * (0 * 1) + Mass_coeff_even (to_tables g) 0 12 2 * 1 ^ 2) in *.
  set (Y := Mass_coeff_even (to_tables g) 0 12 0 * 1 ^ 2 + Mass_coeff_even (to_tables g) 0 12 1 * (1 * 2) + Mass_coeff_even (to_tables g) 0 12 2 * 2 ^ 2) in *.
  set (u := 1 / IZR (Mass_denom (to_tables g) 0 12)) in *. set (z := 1 / IZR (Mass_denom (to_tables g) 10 2)) in *.
  clearbody X Y u z. pose proof PI_RGT_0 as P. pose proof (sqrt_lt_R0 2 ltac:(lra)) as S2.
  assert (D : forall p q, p / PI = q / PI -> p = q).
  { intros p q E. apply (Rmult_eq_reg_r (/ PI)); [exact E|]. apply Rinv_neq_0_compat. lra. }
  assert (A1' : X * u = - (2 / 143 + 94 / 6435) / 8).
  { apply (Rmult_eq_reg_r (sqrt 2)); [|lra]. apply D. transitivity (X * sqrt 2 / PI * u); [unfold Rdiv; ring|rewrite A1; field; lra]. }
  assert (A2' : Y * u = - (9 * 2 / 143 + 94 / 6435) / 8).
  { apply (Rmult_eq_reg_r (sqrt 2)); [|lra]. apply D. transitivity (Y * sqrt 2 / PI * u); [unfold Rdiv; ring|rewrite A2; field; lra]. }
  assert (B1' : X * z = - (206 / 9009 + 34 / 1365) / 4).
  { apply D. transitivity (X * 1 / PI * z); [unfold Rdiv; ring|rewrite B1; field; lra]. }
  assert (B2' : Y * z = - (9 * 206 / 9009 + 34 / 1365) / 4).
  { apply D. transitivity (Y * 1 / PI * z); [unfold Rdiv; ring|rewrite B2; field; lra]. }
  assert (E : (X * u) * (Y * z) = (Y * u) * (X * z)) by ring.
  rewrite A1', A2', B1', B2' in E. lra.
Qed.
Print Assumptions C129_no_exact_files_from_thirteen.
Theorem C129_exact_files_iff : forall n, (exists fs g, file_reader fs = Ok g /\ g_size g = n /\
    forall a b, a < b -> mass_exact (to_tables g) n a b /\ J_exact (to_tables g) n a b /\ L_exact (to_tables g) n a b) <-> (n <= 12)%nat.
Proof.
  intros n. split; [|apply C129_exact_files_up_to_twelve].
  intros (fs & g & Hg & Sz & E). destruct (le_lt_dec n 12) as [|L]; auto. exfalso.
  apply (C129_no_exact_files_from_thirteen fs g Hg); [lia|].
  split; intros i j Hi Hj; [destruct (E 0 1) as (M & _ & _); [lra|]|destruct (E 1 2) as (M & _ & _); [lra|]]; apply M; lia.
Qed.
Print Assumptions C129_exact_files_iff.

(* ------------------------------------------------------------------ C129: failures *)
(** each of the five files is needed, whatever the geometry *)
Theorem C129_every_file_needed : forall fs, f_mass fs = None \/ f_J fs = None \/ f_G fs = None \/ f_L fs = None \/ f_VV fs = None ->
  file_reader fs = Err OSError.
Proof.
  intros fs H. unfold file_reader, opened.
  destruct (f_mass fs); [|reflexivity]. cbn [bind]. destruct (f_J fs); [|reflexivity]. cbn [bind]. destruct (f_G fs); [|reflexivity]. cbn [bind].
  destruct (f_L fs); [|reflexivity]. cbn [bind]. destruct (f_VV fs); [|reflexivity].
  exfalso. destruct H as [H|[H|[H|[H|H]]]]; discriminate.
Qed.
Print Assumptions C129_every_file_needed.
(** nothing the G and VV files hold besides their denominators matters *)
Theorem C129_G_and_VV_coefficients_unread : forall fs fG fV cG cV, f_G fs = Some fG -> f_VV fs = Some fV ->
  file_reader {| f_mass := f_mass fs; f_J := f_J fs; f_G := Some {| denominators := denominators fG; coefficients := cG |}; f_L := f_L fs;
                 f_VV := Some {| denominators := denominators fV; coefficients := cV |} |} = file_reader fs.
Proof. intros fs fG fV cG cV E1 E2. unfold file_reader. rewrite E1, E2. reflexivity. Qed.
Print Assumptions C129_G_and_VV_coefficients_unread.

(** two files of size one *)
Definition tiny (vJ : list R) : files := {|
  f_mass := Some {| denominators := Some (ones 1); coefficients := Some (fun s => if String.eqb s "Element11" then Some [1; 2; 3] else None) |};
  f_J := Some {| denominators := Some (ones 1); coefficients := Some (fun s => if String.eqb s "Element11" then Some vJ else None) |};
  f_G := Some {| denominators := Some (ones 1); coefficients := None |}; f_L := Some {| denominators := Some (ones 1); coefficients := None |};
  f_VV := Some {| denominators := Some {| z_0 := 1; z_1 := 1; z_2 := 1; z_at := fun _ _ _ => 1%Z |}; coefficients := None |} |}.
Example C129_example : (exists g, file_reader (tiny [4; 5]) = Ok g /\ J_coeff (to_tables g) 0 0 1 = 5 /\ Mass_coeff_even (to_tables g) 0 0 2 = 3 /\
    make_mass_sphere (to_tables g) 1 2 0 0 = 17 / PI) /\
  (exists g, file_reader (tiny (4 :: nil)) = Ok g /\ J_coeff (to_tables g) 0 0 0 = 4 /\ J_coeff (to_tables g) 0 0 1 = 4) /\
  file_reader (tiny [4; 5; 6]) = Err ValueError /\ file_reader (tiny nil) = Err ValueError.
Proof.
  split; [|split; [|split; reflexivity]].
  - eexists. split; [reflexivity|]. split; [reflexivity|]. split; [reflexivity|]. cbv -[Rplus Rmult Rdiv PI IZR pow sqrt Rinv]. simpl. field. apply PI_neq0.
  - eexists. split; [reflexivity|]. split; reflexivity.
Qed.
