(** Theorems about the driver (C65, C66, C93). *)
From Coq Require Import String.
From Verif Require Import Py PyLemmas ConfigModel ConfigData StoreModel DriverModel ConfigThms.
Open Scope string_scope.
Open Scope R_scope.

(** * Steps that only touch the disk *)

Definition disk_only {A} (m : act A) : Prop := forall s r s', m s = (r, s') ->
  m_results s' = m_results s /\ m_r_times s' = m_r_times s /\ m_wave s' = m_wave s /\ m_calls s' = m_calls s.

Lemma do_ret {A} (a : A) : disk_only (aret a).
Proof. intros s r s' H. injection H as _ <-. auto. Qed.
Lemma do_pure {A} (x : result A) : disk_only (pure x).
Proof. intros s r s' H. injection H as _ <-. auto. Qed.
Lemma do_disk {A} (m : disk -> result A * disk) : disk_only (on_disk m).
Proof. intros s r s' H. unfold on_disk in H. destruct (m (m_disk s)) as [x d]. injection H as _ <-. cbn. auto. Qed.
Lemma do_bind {A B} (m : act A) (k : A -> act B) : disk_only m -> (forall a, disk_only (k a)) -> disk_only (abind m k).
Proof.
  intros Hm Hk s r s' H. unfold abind in H. destruct (m s) as [[a|e] s1] eqn:E; destruct (Hm _ _ _ E) as (A1 & A2 & A3 & A4).
  - destruct (Hk _ _ _ _ H) as (B1 & B2 & B3 & B4). repeat split; congruence.
  - injection H as _ <-. auto.
Qed.
Lemma do_for {A} (f : nat -> A -> act unit) : (forall i a, disk_only (f i a)) -> forall l i, disk_only (for_each f i l).
Proof. intros Hf l. induction l as [|a l IH]; intros i; cbn; [apply do_ret|]. apply do_bind; auto. Qed.
Lemma do_saving : forall pr c sv o w N s2 u m, disk_only (save_results pr c sv o w N s2 u m).
Proof.
  intros. unfold save_results. destruct (c_saving c =? 1)%Z; [|apply do_ret]. destruct (c_eval_times c =? 0)%Z.
  - apply do_bind; [apply do_pure|]. intros r. apply do_disk.
  - apply do_for. intros i v. repeat (apply do_bind; [apply do_pure|]; intros ?). apply do_disk.
Qed.

Lemma setitem_spec : forall (l : list R) i v l', setitem l i v = Ok l' ->
  length l' = length l /\ forall j, nth j l' 0 = if (j =? i)%nat then v else nth j l 0.
Proof.
  intros l i v l' H. unfold setitem in H. destruct (Nat.ltb_spec i (length l)) as [Hi|]; [|discriminate].
  assert (l' = firstn i l ++ v :: skipn (S i) l)%list as -> by congruence. clear H.
  split.
  - rewrite app_length. cbn [Datatypes.length]. rewrite firstn_length, skipn_length. lia.
  - intros j. destruct (Nat.eqb_spec j i) as [->|N].
    + rewrite app_nth2; rewrite firstn_length; [|lia]. replace (i - Nat.min i (length l))%nat with 0%nat by lia. reflexivity.
    + destruct (Nat.lt_ge_cases j i).
      * rewrite app_nth1 by (rewrite firstn_length; lia).
        rewrite <- (firstn_skipn i l) at 2. rewrite app_nth1 by (rewrite firstn_length; lia). reflexivity.
      * rewrite app_nth2; rewrite firstn_length; [|lia]. replace (j - Nat.min i (length l))%nat with (S (j - i - 1))%nat by lia.
        cbn [nth]. rewrite <- (firstn_skipn (S i) l) at 2. rewrite app_nth2; rewrite firstn_length; [|lia].
        f_equal. lia.
Qed.

(** Call number [k] of solve was made for level [count] of the study and returned [o]. *)
Definition called (solve : nat -> config -> call -> result outcome) (c : config) (uncollided moving : bool)
    (k count : nat) (o : outcome) : Prop :=
  exists a, solve k c a = Ok o /\ nth_error (c_N_angles c) count = Some (a_N_ang a) /\
    parameter_function (c_major c) (c_N_spaces c) (c_Ms c) count = Ok (a_N_space a, a_M a) /\
    x0_function (entries (c_x0 c)) (c_source_type c) count = Ok (a_x0 a) /\
    a_uncollided a = uncollided /\ a_moving a = moving.

Ltac astep H := unfold abind at 1 in H;
  match type of H with
  | match ?x with pair _ _ => _ end = _ =>
      let r := fresh "r" in let s1 := fresh "s" in let E := fresh "E" in
      destruct x as [[r|] s1] eqn:E; [|discriminate H]
  end.
Tactic Notation "ast" hyp(H) ident(r) ident(s1) ident(E) := unfold abind at 1 in H;
  match type of H with
  | match ?x with pair _ _ => _ end = _ => destruct x as [[r|] s1] eqn:E; [|discriminate H]
  end.

Lemma level_spec : forall pr solve c sv u m count na s s',
  nth_error (c_N_angles c) count = Some na ->
  level pr solve c sv u m count na s = (Ok tt, s') ->
  exists o, called solve c u m (m_calls s) count o /\ m_calls s' = S (m_calls s) /\ m_wave s' = m_wave s /\
    length (m_r_times s') = length (m_r_times s) /\
    (forall j, nth j (m_r_times s') 0 = nth j (m_r_times s) 0 +
                 (if (j =? count)%nat then out_time o / IZR (c_N_runs c) else 0)) /\
    m_results s' = (if (count =? length (c_N_angles c) - 1)%nat then Some o else m_results s).
Proof.
  intros pr solve c sv u m count na s s' Hna H. unfold level in H.
  ast H r sa E. injection E as E <-. ast H r0 sa E0. injection E0 as E0 <-. ast H r1 sa E1. unfold get_wave in E1. injection E1 as E1 <-.
  ast H o sa E2. unfold call_solve in E2. injection E2 as E2 <-.
  ast H r3 sa E3. injection E3 as E3 <-. ast H r4 sa E4. injection E4 as E4 <-. ast H r5 sa E5. injection E5 as E5 <-.
  ast H r6 s0 E6. pose proof (do_saving _ _ _ _ _ _ _ _ _ _ _ _ E6) as (D1 & D2 & D3 & D4). cbn in D1, D2, D3, D4.
  ast H r7 s1 E7. unfold add_time in E7. destruct (getitem (m_r_times s0) count) as [old|] eqn:Eg; [|discriminate].
  destruct (setitem (m_r_times s0) count (old + out_time o / IZR (c_N_runs c))) as [ts|] eqn:Es; [|discriminate].
  injection E7 as _ <-. destruct (setitem_spec _ _ _ _ Es) as (Ls & Ns).
  assert (Old : old = nth count (m_r_times s0) 0).
  { unfold getitem in Eg. destruct (nth_error (m_r_times s0) count) as [x|] eqn:Q; [|discriminate]. injection Eg as <-.
    symmetry. apply nth_error_nth. exact Q. }
  ast H r8 s2 E7.
  assert (W : m_results s2 = (if (count =? length (c_N_angles c) - 1)%nat then Some o else m_results s) /\
              m_r_times s2 = ts /\ m_wave s2 = m_wave s /\ m_calls s2 = S (m_calls s)).
  { destruct (count =? length (c_N_angles c) - 1)%nat.
    - injection E7 as _ <-. cbn. repeat split; congruence.
    - injection E7 as _ <-. cbn. repeat split; congruence. }
  destruct W as (W1 & W2 & W3 & W4).
  assert (F : m_results s' = m_results s2 /\ m_r_times s' = m_r_times s2 /\ m_wave s' = m_wave s2 /\ m_calls s' = m_calls s2).
  { destruct (c_find_wave_loc c =? 1)%Z; [|injection H as <-; auto].
    refine (do_bind _ _ _ _ _ _ _ H).
    - destruct (_ && _)%bool; [|apply do_ret]. destruct (rev (entries (c_eval_array c))) as [|v l]; [apply do_ret|].
      apply do_bind; [apply do_pure|]. intros t. apply do_pure.
    - intros sv'. apply do_disk. }
  destruct F as (F1 & F2 & F3 & F4).
  exists o. split; [|split; [congruence|split; [congruence|split; [|split; [|congruence]]]]].
  - eexists. split; [exact E2|]. cbn. destruct r as [N M]. cbn. auto.
  - rewrite F2, W2, Ls, D2. reflexivity.
  - intros j. rewrite F2, W2, Ns, Old, <- D2. destruct (Nat.eqb_spec j count) as [->|]; lra.
Qed.

Lemma levels_spec : forall pr solve c sv u m l i s s',
  (forall j, (j < length l)%nat -> nth_error (c_N_angles c) (i + j) = nth_error l j) ->
  for_each (level pr solve c sv u m) i l s = (Ok tt, s') ->
  exists out : nat -> outcome,
    (forall j, (j < length l)%nat -> called solve c u m (m_calls s + j) (i + j) (out j)) /\
    m_calls s' = (m_calls s + length l)%nat /\ m_wave s' = m_wave s /\
    length (m_r_times s') = length (m_r_times s) /\
    (forall q, nth q (m_r_times s') 0 = nth q (m_r_times s) 0 +
       (if (i <=? q)%nat && (q <? i + length l)%nat then out_time (out (q - i)%nat) / IZR (c_N_runs c) else 0)) /\
    m_results s' = (if (i <=? length (c_N_angles c) - 1)%nat && (length (c_N_angles c) - 1 <? i + length l)%nat
                    then Some (out (length (c_N_angles c) - 1 - i)%nat) else m_results s).
Proof.
  intros pr solve c sv u m l. induction l as [|na l IH]; intros i s s' HN H; cbn [for_each] in H.
  - injection H as <-. exists (fun _ => {| out_xs := nil; out_phi := nil; out_psi := nil; out_e := nil; out_coeff := nil;
      out_edges := nil; out_ws := nil; out_mus := nil; out_wave := {| w_t := nil; w_left := nil; w_right := nil; w_T := nil |};
      out_time := 0 |}). cbn [length].
    split; [intros j Hj; lia|]. split; [lia|]. split; [reflexivity|]. split; [reflexivity|]. split.
    + intros q. destruct (Nat.leb_spec i q), (Nat.ltb_spec q (i + 0)); cbn; lra || lia.
    + destruct (Nat.leb_spec i (length (c_N_angles c) - 1)), (Nat.ltb_spec (length (c_N_angles c) - 1) (i + 0)); cbn; reflexivity || lia.
  - astep H. destruct r. rename s0 into s1.
    assert (Hn0 : nth_error (c_N_angles c) i = Some na) by (specialize (HN 0%nat ltac:(cbn; lia)); rewrite Nat.add_0_r in HN; exact HN).
    destruct (level_spec _ _ _ _ _ _ _ _ _ _ Hn0 E) as
      (o & C1 & C2 & C3 & C4 & C5 & C6).
    destruct (IH (S i) s1 s') as (out & O1 & O2 & O3 & O4 & O5 & O6); [|exact H|].
    { intros j Hj. specialize (HN (S j) ltac:(cbn; lia)). cbn [nth_error] in HN. rewrite <- HN. f_equal. lia. }
    exists (fun j => match j with 0%nat => o | S j' => out j' end). cbn [length]. split; [|split; [|split; [|split; [|split]]]].
    + intros [|j] Hj; [rewrite !Nat.add_0_r; exact C1|].
      replace (m_calls s + S j)%nat with (m_calls s1 + j)%nat by lia. replace (i + S j)%nat with (S i + j)%nat by lia.
      apply O1. lia.
    + lia.
    + congruence.
    + congruence.
    + intros q. rewrite O5, C5. destruct (Nat.eqb_spec q i) as [->|Nq].
      * rewrite Nat.sub_diag. destruct (Nat.leb_spec (S i) i); [lia|]. destruct (Nat.leb_spec i i); [|lia].
        destruct (Nat.ltb_spec i (i + S (length l))); [|lia]. cbn. lra.
      * destruct (Nat.leb_spec (S i) q), (Nat.leb_spec i q); try lia; cbn [andb]; [|lra].
        replace (i + S (length l))%nat with (S i + length l)%nat by lia.
        destruct (Nat.ltb_spec q (S i + length l)); [|lra].
        replace (q - i)%nat with (S (q - S i)) by lia. lra.
    + rewrite O6, C6. set (L := (length (c_N_angles c) - 1)%nat).
      replace (i + S (length l))%nat with (S i + length l)%nat by lia.
      destruct (Nat.eqb_spec i L) as [<-|NL].
      * rewrite Nat.sub_diag. destruct (Nat.leb_spec (S i) i); [lia|]. destruct (Nat.leb_spec i i); [|lia].
        destruct (Nat.ltb_spec i (S i + length l)); [|lia]. reflexivity.
      * destruct (Nat.leb_spec (S i) L), (Nat.leb_spec i L); try lia; cbn [andb]; [|reflexivity].
        destruct (Nat.ltb_spec L (S i + length l)); [|reflexivity]. f_equal. replace (L - i)%nat with (S (L - S i)) by lia. reflexivity.
Qed.

Lemma runs_spec : forall pr solve c sv u m n i s s',
  for_each (fun _ _ => for_each (level pr solve c sv u m) 0 (c_N_angles c)) i (repeat tt n) s = (Ok tt, s') ->
  let L := length (c_N_angles c) in
  exists out : nat -> nat -> outcome,
    (forall r j, (r < n)%nat -> (j < L)%nat -> called solve c u m (m_calls s + (r * L + j)) j (out r j)) /\
    m_calls s' = (m_calls s + n * L)%nat /\ m_wave s' = m_wave s /\ length (m_r_times s') = length (m_r_times s) /\
    (forall q, (q < L)%nat -> nth q (m_r_times s') 0 = nth q (m_r_times s) 0 +
       sumn n (fun r => out_time (out r q)) / IZR (c_N_runs c)) /\
    m_results s' = (if (0 <? n)%nat && (0 <? L)%nat then Some (out (n - 1)%nat (L - 1)%nat) else m_results s).
Proof.
  intros pr solve c sv u m n. induction n as [|n IH]; intros i s s' H L; cbn [repeat for_each] in H.
  - injection H as <-. exists (fun _ _ => {| out_xs := nil; out_phi := nil; out_psi := nil; out_e := nil; out_coeff := nil;
      out_edges := nil; out_ws := nil; out_mus := nil; out_wave := {| w_t := nil; w_left := nil; w_right := nil; w_T := nil |};
      out_time := 0 |}). split; [intros; lia|]. split; [lia|]. split; [reflexivity|]. split; [reflexivity|]. split.
    + intros q _. cbn. unfold Rdiv. rewrite Rmult_0_l. lra.
    + reflexivity.
  - astep H. destruct r. rename s0 into s1.
    destruct (levels_spec _ _ _ _ _ _ (c_N_angles c) 0 _ _ ltac:(intros; reflexivity) E) as (o & C1 & C2 & C3 & C4 & C5 & C6).
    destruct (IH (S i) s1 s' H) as (out & O1 & O2 & O3 & O4 & O5 & O6). fold L in C1, C2, C5, C6, O1, O2, O5, O6.
    exists (fun r => match r with 0%nat => o | S r' => out r' end). split; [|split; [|split; [|split; [|split]]]].
    + intros [|r] j Hr Hj; cbn [Nat.mul].
      * apply C1. exact Hj.
      * replace (m_calls s + (L + r * L + j))%nat with (m_calls s1 + (r * L + j))%nat by lia. apply O1; lia.
    + cbn [Nat.mul]. lia.
    + congruence.
    + congruence.
    + intros q Hq. rewrite (O5 q Hq), C5. destruct (Nat.ltb_spec q (0 + L)); [|lia]. cbn [Nat.leb andb]. rewrite Nat.sub_0_r.
      replace (sumn (S n) (fun r => out_time (match r with 0%nat => o | S r' => out r' end q))) with
        (out_time (o q) + sumn n (fun r => out_time (out r q))).
      { unfold Rdiv. lra. }
      clear. induction n as [|n IH]; [cbn; lra|]. cbn [sumn] in *. rewrite <- IH. lra.
    + rewrite O6, C6.
      assert (B : ((0 <=? L - 1)%nat && (L - 1 <? 0 + L)%nat)%bool = (0 <? L)%nat).
      { destruct (Nat.ltb_spec 0 L), (Nat.ltb_spec (L - 1) (0 + L)); cbn; lia || reflexivity. }
      rewrite B, Nat.sub_0_r. clear. generalize (0 <? L)%nat. intros b.
      destruct n; destruct b; cbn [Nat.ltb Nat.leb andb]; try reflexivity.
      replace (S (S n) - 1)%nat with (S (S n - 1)) by lia. reflexivity.
Qed.

Lemma load_wave_spec : forall pr c s s', load_wave pr c s = (Ok tt, s') ->
  m_results s' = m_results s /\ m_r_times s' = m_r_times s /\ m_calls s' = m_calls s.
Proof.
  intros pr c s s' H. unfold load_wave in H. astep H. injection E as E <-.
  destruct (r =? 1)%Z; [|injection H as <-; auto].
  astep H. injection E0 as E0 <-.
  assert (Fe : forall name st st', (w <<- on_disk (on_file wave_load_file
                (call_wavepoints pr {| l_problem := c_problem c; l_source := name; l_rad_or_transfer := "transfer";
                                       l_c := c_ratio c; l_cv := dec2R (c_cv0 c) |} (dec2R (c_tfinal c)))) ;;
         set_wave (Some w)) st = (Ok tt, st') ->
         m_results st' = m_results st /\ m_r_times st' = m_r_times st /\ m_calls st' = m_calls st).
  { intros name st st' K. astep K. destruct (do_disk _ _ _ _ E1) as (A & B & _ & D). injection K as <-. cbn. auto. }
  destruct (c_thick c && (r0 =? 1)%Z)%bool; [exact (Fe _ _ _ H)|].
  destruct (c_thick c); [|injection H as <-; auto].
  astep H. injection E1 as E1 <-. destruct (r1 =? 1)%Z; [exact (Fe _ _ _ H)|injection H as <-; auto].
Qed.

Lemma main_spec : forall pr solve c u m s s', main pr solve c u m s = (Ok tt, s') ->
  let L := length (c_N_angles c) in let n := Z.to_nat (c_N_runs c) in
  exists out : nat -> nat -> outcome,
    (forall r j, (r < n)%nat -> (j < L)%nat -> called solve c u m (m_calls s + (r * L + j)) j (out r j)) /\
    m_calls s' = (m_calls s + n * L)%nat /\ length (m_r_times s') = length (m_r_times s) /\
    (forall q, (q < L)%nat -> nth q (m_r_times s') 0 = nth q (m_r_times s) 0 +
       sumn n (fun r => out_time (out r q)) / IZR (c_N_runs c)) /\
    m_results s' = (if (0 <? n)%nat && (0 <? L)%nat then Some (out (n - 1)%nat (L - 1)%nat) else m_results s).
Proof.
  intros pr solve c u m s s' H L n. unfold main in H. astep H. injection E as E <-.
  astep H. assert (s0 = s) as -> by (destruct (c_benchmarking c =? 1)%Z; [discriminate|injection E0 as _ <-; reflexivity]).
  astep H. destruct r1. destruct (load_wave_spec _ _ _ _ E1) as (A & B & C).
  destruct (runs_spec _ _ _ _ _ _ _ _ _ _ H) as (out & O1 & O2 & O3 & O4 & O5 & O6).
  exists out. fold L n in O1, O2, O5, O6. rewrite A, B, C in *. split; [exact O1|]. split; [exact O2|]. split; [exact O4|]. split; assumption.
Qed.

(** * C65: the reported run and the mean time *)

(** With at least one repetition and one level: the exposed results are those of the finest level of the last
    repetition, level j of repetition r is call number r L + j, and the recorded time of a level is the mean of its
    times over the repetitions, [m_r_times] being zero when the solver object is made. *)
Theorem C65_finest_run_and_mean_time : forall pr solve src par mesh c d calls u m s',
  load src par mesh = Ok c -> (1 <= c_N_runs c)%Z -> (1 <= length (c_N_angles c))%nat ->
  main pr solve c u m (new_solver c d calls) = (Ok tt, s') ->
  let L := length (c_N_angles c) in let n := Z.to_nat (c_N_runs c) in
  exists out : nat -> nat -> outcome,
    (forall r j, (r < n)%nat -> (j < L)%nat -> called solve c u m (calls + (r * L + j)) j (out r j)) /\
    m_calls s' = (calls + n * L)%nat /\
    m_results s' = Some (out (n - 1)%nat (L - 1)%nat) /\
    length (m_r_times s') = L /\
    (forall q, (q < L)%nat -> INR n * nth q (m_r_times s') 0 = sumn n (fun r => out_time (out r q))).
Proof.
  intros pr solve src par mesh c d calls u m s' Hl Hn HL H L n.
  destruct (load_inv _ _ _ _ Hl) as (_ & _ & RT & _).
  destruct (main_spec _ _ _ _ _ _ _ H) as (out & O1 & O2 & O3 & O4 & O5). fold L n in O1, O2, O4, O5. cbn [m_calls new_solver m_r_times m_results] in O1, O2, O3, O4, O5.
  exists out. split; [exact O1|]. split; [exact O2|]. split; [|split].
  - rewrite O5. destruct (Nat.ltb_spec 0 n), (Nat.ltb_spec 0 L); cbn; try reflexivity; exfalso; subst n L; lia.
  - rewrite O3, RT, repeat_length. reflexivity.
  - intros q Hq. rewrite (O4 q Hq), RT. rewrite nth_repeat.
    assert (E : INR n = IZR (c_N_runs c)) by (unfold n; rewrite INR_IZR_INZ, Z2Nat.id by lia; reflexivity).
    rewrite E. field. apply not_0_IZR. lia.
Qed.
Print Assumptions C65_finest_run_and_mean_time.

(** With no repetition nothing is solved, reported or timed. *)
Theorem C65_no_repetition : forall pr solve c u m s s',
  (c_N_runs c <= 0)%Z -> main pr solve c u m s = (Ok tt, s') ->
  m_results s' = m_results s /\ m_calls s' = m_calls s.
Proof.
  intros pr solve c u m s s' Hn H. destruct (main_spec _ _ _ _ _ _ _ H) as (out & _ & O2 & _ & _ & O5).
  assert (Z.to_nat (c_N_runs c) = 0%nat) as E by lia. rewrite E in O2, O5. cbn in O5. split; [exact O5|lia].
Qed.
Print Assumptions C65_no_repetition.

(** A run that asks for no recorded front gets none and its start touches nothing else, the disk included. *)
Theorem C97_no_front_asked : forall pr c s v z, item_of (c_move_type c) 1 = Ok v -> int_of v = Ok z -> z <> 1%Z ->
  exists s', load_wave pr c s = (Ok tt, s') /\ m_wave s' = Some None /\ m_disk s' = m_disk s /\
    m_results s' = m_results s /\ m_r_times s' = m_r_times s /\ m_calls s' = m_calls s.
Proof.
  intros pr c s v z Hv Hz N. unfold load_wave, abind, pure. rewrite Hv. cbn [bind]. rewrite Hz. apply Z.eqb_neq in N. rewrite N.
  eexists. split; [reflexivity|]. cbn. auto 9.
Qed.
Print Assumptions C97_no_front_asked.

(** A run ends normally, and so reports, when every level finds its parameters and the solver never fails: no benchmark, no front
    asked for or looked for, nothing saved. *)
Theorem C65_run_ends : forall pr solve src par mesh c d calls u m sv v z w,
  load src par mesh = Ok c -> saver_of c (dec2R (c_tfinal c)) u m = Ok sv ->
  item_of (c_move_type c) 1 = Ok v -> int_of v = Ok z -> z <> 1%Z ->
  c_benchmarking c <> 1%Z -> c_saving c <> 1%Z -> c_find_wave_loc c <> 1%Z -> x0_or_sigma c = Ok w ->
  (forall k c a, exists o, solve k c a = Ok o) ->
  (forall j na, nth_error (c_N_angles c) j = Some na -> exists N M x0 n q,
      parameter_function (c_major c) (c_N_spaces c) (c_Ms c) j = Ok (N, M) /\
      x0_function (entries (c_x0 c)) (c_source_type c) j = Ok x0 /\ count_of N = Ok n /\ count_of na = Ok q) ->
  exists s', main pr solve c u m (new_solver c d calls) = (Ok tt, s').
Proof.
  intros pr solve src par mesh c d calls u m sv v z w Hl Hs Hv Hz Nz Nb Ns Nf Hw So Lv.
  destruct (load_inv _ _ _ _ Hl) as (_ & _ & RT & _). apply Z.eqb_neq in Nb, Ns, Nf.
  destruct (C97_no_front_asked pr c (new_solver c d calls) v z Hv Hz Nz) as (s0 & E0 & W0 & _ & _ & T0 & _).
  unfold main. unfold abind at 1. unfold pure at 1. rewrite Hs. unfold abind at 1. rewrite Nb. unfold aret at 1. unfold abind at 1. rewrite E0.
  assert (T : length (m_r_times s0) = length (c_N_angles c)) by (rewrite T0; cbn; rewrite RT; apply repeat_length).
  clear T0 E0. generalize 0%nat at 2. generalize (Z.to_nat (c_N_runs c)). intros n. revert s0 W0 T.
  assert (One : forall l pre s, c_N_angles c = (pre ++ l)%list -> m_wave s = Some None -> length (m_r_times s) = length (c_N_angles c) ->
    exists s', for_each (level pr solve c sv u m) (length pre) l s = (Ok tt, s') /\ m_wave s' = Some None /\ length (m_r_times s') = length (c_N_angles c)).
  { intros l. induction l as [|na l IH]; intros pre s Hp W T; [eexists; split; [reflexivity|auto]|].
    assert (Hn : nth_error (c_N_angles c) (length pre) = Some na) by (rewrite Hp, nth_error_app2, Nat.sub_diag by lia; reflexivity).
    destruct (Lv _ _ Hn) as (N & M & x0 & k & q & P1 & P2 & P3 & P4).
    assert (exists s1, level pr solve c sv u m (length pre) na s = (Ok tt, s1)) as (s1 & E1).
    { unfold level. unfold abind at 1, pure at 1. rewrite P1. unfold abind at 1, pure at 1. rewrite P2. unfold abind at 1, get_wave at 1. rewrite W.
      unfold abind at 1, call_solve at 1. match goal with |- context [solve ?k ?c ?a] => destruct (So k c a) as (o & ->) end.
      unfold abind at 1, pure at 1. rewrite Hw. unfold abind at 1, pure at 1. cbn [fst]. rewrite P3. unfold abind at 1, pure at 1. rewrite P4.
      unfold abind at 1, save_results at 1. rewrite Ns. unfold aret at 1. unfold abind at 1, add_time at 1. cbn [m_r_times].
      assert (Lp : (length pre < length (m_r_times s))%nat) by (rewrite T; apply nth_error_Some; congruence).
      unfold getitem. destruct (nth_error (m_r_times s) (length pre)) as [old|] eqn:Eo; [|apply nth_error_None in Eo; lia].
      unfold setitem at 1. destruct (Nat.ltb_spec (length pre) (length (m_r_times s))); [|lia].
      unfold abind at 1. rewrite Nf. destruct (length pre =? _)%nat; eexists; reflexivity. }
    destruct (level_spec _ _ _ _ _ _ _ _ _ _ Hn E1) as (o & _ & _ & A3 & A4 & _).
    destruct (IH (pre ++ [na])%list s1) as (s2 & E2 & W2 & T2); [rewrite Hp, <- app_assoc; reflexivity|congruence|congruence|].
    exists s2. cbn [for_each]. unfold abind at 1. rewrite E1. rewrite app_length in E2. cbn [length] in E2. rewrite Nat.add_1_r in E2. auto. }
  induction n as [|n IH]; intros s W T k; [eexists; reflexivity|]. cbn [repeat for_each]. unfold abind at 1.
  destruct (One (c_N_angles c) nil s eq_refl W T) as (s1 & E1 & W1 & T1). cbn [length] in E1. rewrite E1. apply IH; assumption.
Qed.
Print Assumptions C65_run_ends.

(** The width in the key of a run: the problem's sigma when it is a Gaussian one with sigma not 0, otherwise the first entry of x0. *)
Theorem C94_key_width : forall src par mesh c, load src par mesh = Ok c ->
  (dec2R (c_sigma c) <> 0 -> (src = "gaussian_IC" \/ src = "gaussian_source") /\ x0_or_sigma c = Ok (dec2R (c_sigma c))) /\
  (dec2R (c_sigma c) = 0 -> forall w, x0_or_sigma c = Ok w <->
     exists l v dd, c_x0 c = Arr1 l /\ nth_error l 0 = Some v /\ float_of v = Ok dd /\ w = dec2R dd).
Proof.
  intros src par mesh c H. destruct (load_inv _ _ _ _ H) as (_ & _ & _ & _ & _ & _ & _ & _ & _ & _ & W).
  assert (Z0 : dec2R (c_sigma c) = 0 <-> fst (c_sigma c) = 0%Z).
  { unfold dec2R. split.
    - intros E. apply Rmult_integral in E as [E|E]; [apply eq_IZR; exact E|]. exfalso. revert E. apply powerRZ_NOR. lra.
    - intros ->. apply Rmult_0_l. }
  unfold x0_or_sigma. split.
  - intros N. split.
    + destruct (string_dec src "gaussian_IC") as [|N1]; [auto|]. destruct (string_dec src "gaussian_source") as [|N2]; [auto|].
      destruct (W N1 N2) as [E _]. exfalso. apply N. rewrite E. apply Rmult_0_l.
    + destruct (Z.eqb_spec (fst (c_sigma c)) 0) as [E|]; [exfalso; apply N, Z0; exact E|reflexivity].
  - intros E w. apply Z0 in E. rewrite E. cbn [Z.eqb]. unfold item_of, getitem, num. split.
    + destruct (c_x0 c) as [|l]; [discriminate|]. destruct (nth_error l 0) as [v|] eqn:Q; [|discriminate]. cbn [bind].
      destruct (float_of v) as [dd|] eqn:F; [|discriminate]. cbn [bind]. intros K. injection K as <-. exists l, v, dd. auto.
    + intros (l & v & dd & -> & Q & F & ->). rewrite Q. cbn [bind]. rewrite F. reflexivity.
Qed.
Print Assumptions C94_key_width.
Example C94_ex_width : exists c, load "square_IC" yaml_transport yaml_mesh_parameters = Ok c /\ x0_or_sigma c = Ok (dec2R (5%Z, (-1)%Z)).
Proof. eexists. split; [reflexivity|]. reflexivity. Qed.

(** A concrete run of the shipped square pulse without saving: two levels, one repetition, a solver taking k+1
    seconds in call k. *)
Definition toy_outcome (k : nat) : outcome :=
  {| out_xs := [nil]; out_phi := [nil]; out_psi := [nil]; out_e := nil; out_coeff := nil; out_edges := nil;
     out_ws := nil; out_mus := nil; out_wave := {| w_t := nil; w_left := nil; w_right := nil; w_T := nil |};
     out_time := INR (S k) |}.
Definition toy_solve (k : nat) (c : config) (a : call) : result outcome := Ok (toy_outcome k).
Definition toy_disk : disk := fun _ => None.
Definition toy_print (x : R) : string := "x".
Definition no_saving : yval :=
  match yaml_transport with
  | YDict ((a, YDict all) :: rest) =>
      YDict ((a, YDict (map (fun kv => if String.eqb (fst kv) "save_solution" then (fst kv, YBool false) else kv) all)) :: rest)
  | y => y
  end.
Example C65_ex :
  match load "square_IC" no_saving yaml_mesh_parameters with
  | Ok c => let '(r, s') := main toy_print toy_solve c true true (new_solver c toy_disk 0) in
            r = Ok tt /\ m_results s' = Some (toy_outcome 1) /\ m_r_times s' = [0 + INR 1 / 1; 0 + INR 2 / 1]
  | Err _ => False
  end.
Proof. vm_compute. auto. Qed.

(** * C66: running all variants *)

(** The common body of the nine methods leaves the run object alone when all variants are asked for, also when it
    fails; otherwise, if it succeeds, the run object has exactly the solver's results. *)
Theorem C66_run_object : forall pr solve src par mesh u m fields d calls r f s,
  (run_problem pr solve src par mesh u m true fields d calls = (r, f, s) -> f = fields) /\
  (run_problem pr solve src par mesh u m false fields d calls = (Ok tt, f, s) ->
     exists c st o, load src par mesh = Ok c /\ main pr solve c u m (new_solver c d calls) = (Ok tt, st) /\ s = Some st /\
       m_results st = Some o /\
       f = Some {| f_results := Some o; f_x0 := c_x0 c; f_tfinal := c_tfinal c; f_v0 := c_v0 c; f_t0 := c_t0 c;
                   f_eval_array := c_eval_array c |}) /\
  (run_problem pr solve src par mesh u m false fields d calls = (r, f, s) -> r <> Ok tt -> f = fields).
Proof.
  intros pr solve src par mesh u m fields d calls r f s. unfold run_problem.
  destruct (load src par mesh) as [c|e] eqn:El.
  2: { split; [|split]; intros H; try intros _; injection H; congruence. }
  split; [|split].
  - destruct (abind _ _ _) as [x st]. intros H. injection H as _ <- _. reflexivity.
  - destruct (main pr solve c u m (new_solver c d calls)) as [[[]|e] st] eqn:E; [|discriminate].
    unfold get_results. destruct (m_results st) as [o|] eqn:Eo; [|discriminate]. intros H. injection H as <- <-.
    exists c, st, o. repeat split; auto.
  - destruct (main pr solve c u m (new_solver c d calls)) as [[[]|e] st] eqn:E.
    + unfold get_results. destruct (m_results st) as [o|]; intros H Hr; [injection H as <- _ _; congruence|].
      injection H as _ <- _. reflexivity.
    + intros H _. injection H as _ <- _. reflexivity.
Qed.
Print Assumptions C66_run_object.
Example C66_ex :
  match run_problem toy_print toy_solve "square_IC" no_saving yaml_mesh_parameters true true false None toy_disk 0 with
  | (r, Some f, _) => r = Ok tt /\ f_results f = Some (toy_outcome 1)
  | _ => False
  end.
Proof. vm_compute. auto. Qed.
Example C66_ex_all :
  match run_problem toy_print toy_solve "square_IC" no_saving yaml_mesh_parameters true true true None toy_disk 0 with
  | (r, f, Some s) => r = Ok tt /\ f = None /\ m_results s = Some (toy_outcome 7)
  | _ => False
  end.
Proof. vm_compute. auto. Qed.

(** The flags of the four variants in order. *)
Definition variant_flags : list (bool * bool) := [(true, true); (false, true); (true, false); (false, false)].

(** All variants: they are solved in the order (uncollided, moving), (not, moving), (uncollided, static), (not, static),
    each with all its repetitions and levels, and the recorded time of a level is the sum of the four variants' means. *)
Theorem C66_all_variants : forall pr solve src par mesh c u m fields d calls f st,
  load src par mesh = Ok c -> (1 <= c_N_runs c)%Z ->
  run_problem pr solve src par mesh u m true fields d calls = (Ok tt, f, Some st) ->
  let L := length (c_N_angles c) in let n := Z.to_nat (c_N_runs c) in
  exists out : nat -> nat -> nat -> outcome,
    (forall v fl r j, nth_error variant_flags v = Some fl -> (r < n)%nat -> (j < L)%nat ->
       called solve c (fst fl) (snd fl) (calls + (v * (n * L) + (r * L + j))) j (out v r j)) /\
    m_calls st = (calls + 4 * (n * L))%nat /\
    (forall q, (q < L)%nat -> INR n * nth q (m_r_times st) 0 =
       sumn 4 (fun v => sumn n (fun r => out_time (out v r q)))).
Proof.
  intros pr solve src par mesh c u m fields d calls f st Hl Hn H L n. unfold run_problem in H. rewrite Hl in H.
  destruct (abind _ _ (new_solver c d calls)) as [x s'] eqn:E. injection H as -> _ ->.
  ast E r1 s1 E1. ast E r2 s2 E2. ast E r3 s3 E3. destruct r1, r2, r3.
  destruct (main_spec _ _ _ _ _ _ _ E1) as (o1 & A1 & A2 & A3 & A4 & _).
  destruct (main_spec _ _ _ _ _ _ _ E2) as (o2 & B1 & B2 & B3 & B4 & _).
  destruct (main_spec _ _ _ _ _ _ _ E3) as (o3 & C1 & C2 & C3 & C4 & _).
  destruct (main_spec _ _ _ _ _ _ _ E) as (o4 & D1 & D2 & D3 & D4 & _).
  fold L n in A1, A2, A4, B1, B2, B4, C1, C2, C4, D1, D2, D4.
  destruct (load_inv _ _ _ _ Hl) as (_ & _ & RT & _). cbn in A1, A2, A4.
  exists (fun v => match v with 0%nat => o1 | 1%nat => o2 | 2%nat => o3 | _ => o4 end). split; [|split].
  - intros v fl r j Hv Hr Hj. destruct v as [|[|[|[|v]]]]; cbn [nth_error variant_flags] in Hv; try (destruct v; discriminate);
      injection Hv as <-; cbn [fst snd].
    + replace (calls + (0 * (n * L) + (r * L + j)))%nat with (calls + (r * L + j))%nat by lia. apply A1; assumption.
    + replace (calls + (1 * (n * L) + (r * L + j)))%nat with (m_calls s1 + (r * L + j))%nat by lia. apply B1; assumption.
    + replace (calls + (2 * (n * L) + (r * L + j)))%nat with (m_calls s2 + (r * L + j))%nat by lia. apply C1; assumption.
    + replace (calls + (3 * (n * L) + (r * L + j)))%nat with (m_calls s3 + (r * L + j))%nat by lia. apply D1; assumption.
  - lia.
  - intros q Hq. rewrite (D4 q Hq), (C4 q Hq), (B4 q Hq), (A4 q Hq), RT, nth_repeat.
    assert (Q : INR n = IZR (c_N_runs c)) by (unfold n; rewrite INR_IZR_INZ, Z2Nat.id by lia; reflexivity).
    rewrite Q. clearbody n. cbn [sumn]. field. apply not_0_IZR. lia.
Qed.
Print Assumptions C66_all_variants.

(** * C93: after the solve *)

(** A boundary-source run of a single variant never ends normally: with the solve done and the results on the run object it
    raises a TypeError. *)
Theorem C93_boundary_source_always_raises : forall pr solve par mesh u m fields d calls r f s,
  boundary_source pr solve par mesh u m false fields d calls = (r, f, s) ->
  r <> Ok tt /\
  (forall f' s', run_problem pr solve "boundary_source" par mesh u m false fields d calls = (Ok tt, f', s') ->
     r = Err TypeError /\ f = f' /\ s = s').
Proof.
  intros pr solve par mesh u m fields d calls r f s H. unfold boundary_source in H.
  destruct (run_problem _ _ _ _ _ _ _ _ _ _ _) as [[[[]|e] f0] s0].
  - injection H as <- <- <-. split; [discriminate|]. intros f' s' E. injection E as <- <-. auto.
  - injection H as <- <- <-. split; [discriminate|]. intros f' s' E. discriminate.
Qed.
Print Assumptions C93_boundary_source_always_raises.

(** A square-source run of all variants on a run object without results raises an AttributeError after the four solves;
    a run of one variant ends normally only if x0 is a single number. *)
Theorem C93_square_source : forall pr solve par mesh u m d calls,
  (forall f s, square_source pr solve par mesh u m true None d calls <> (Ok tt, f, s)) /\
  (forall fields f s, square_source pr solve par mesh u m false fields d calls = (Ok tt, f, s) ->
     exists c v, load "square_source" par mesh = Ok c /\ (c_x0 c = Arr0 v \/ c_x0 c = Arr1 [v])).
Proof.
  intros pr solve par mesh u m d calls. split.
  - intros f s H. unfold square_source in H.
    destruct (run_problem pr solve "square_source" par mesh u m true None d calls) as [[[[]|e] f0] s0] eqn:E; [|discriminate].
    destruct (C66_run_object pr solve "square_source" par mesh u m None d calls (Ok tt) f0 s0) as (K & _ & _).
    rewrite (K E) in H. discriminate.
  - intros fields f s H. unfold square_source in H.
    destruct (run_problem pr solve "square_source" par mesh u m false fields d calls) as [[[[]|e] f0] s0] eqn:E; [|discriminate].
    destruct (C66_run_object pr solve "square_source" par mesh u m fields d calls (Ok tt) f0 s0) as (_ & K & _).
    destruct (K E) as (c & st & o & Hl & _ & _ & _ & ->). exists c. cbn [f_x0] in H.
    destruct (c_x0 c) as [v|[|v [|w l]]]; cbn in H; try discriminate; exists v; auto.
Qed.
Print Assumptions C93_square_source.

(** The shipped configuration cut down to one refinement level. *)
Definition one_level : yval :=
  match no_saving with
  | YDict ((a, YDict all) :: rest) =>
      YDict ((a, YDict (map (fun kv => if (String.eqb (fst kv) "N_spaces" || String.eqb (fst kv) "Ms")%bool
                                       then (fst kv, YList [YInt 4]) else kv) all)) :: rest)
  | y => y
  end.
Example C93_ex_boundary :
  match boundary_source toy_print toy_solve one_level yaml_mesh_parameters false true false None toy_disk 0 with
  | (r, Some f, _) => r = Err TypeError /\ f_results f = Some (toy_outcome 0)
  | _ => False
  end.
Proof. vm_compute. auto. Qed.
Example C93_ex_square :
  match square_source toy_print toy_solve one_level yaml_mesh_parameters true true true None toy_disk 0 with
  | (r, f, Some s) => r = Err AttributeError /\ f = None /\ m_results s = Some (toy_outcome 3)
  | _ => False
  end.
Proof. vm_compute. auto. Qed.
