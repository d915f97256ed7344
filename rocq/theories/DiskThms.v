(** What runs of the driver leave in the data folder (C59, C94, C95). *)
From Coq Require Import String.
From Verif Require Import Py PyLemmas ConfigModel ConfigData StoreModel StoreProofs StoreThms DriverModel ConfigThms DriverThms.
Open Scope string_scope.
Open Scope R_scope.

(** Saves made in order, each ending normally. *)
Fixpoint ran (pr : R -> string) (l : list save_call) (f f' : node) : Prop :=
  match l with
  | nil => f' = f
  | a :: l' => exists f1, do_save pr a f = (Ok tt, f1) /\ ran pr l' f1 f'
  end.
Lemma ran_app : forall pr l1 l2 f f1 f2, ran pr l1 f f1 -> ran pr l2 f1 f2 -> ran pr (l1 ++ l2) f f2.
Proof.
  intros pr l1. induction l1 as [|a l IH]; intros l2 f f1 f2 H1 H2; cbn in *; [subst f1; exact H2|].
  destruct H1 as (g & H & H1). exists g. split; [exact H|]. eapply IH; eassumption.
Qed.
Lemma ran_split : forall pr l1 a l2 f f', ran pr (l1 ++ a :: l2) f f' ->
  exists f1, do_save pr a (after pr l1 f) = (Ok tt, f1) /\ f' = after pr (l1 ++ a :: l2) f.
Proof.
  assert (R : forall pr l f f', ran pr l f f' -> f' = after pr l f).
  { intros pr l. induction l as [|a l IH]; intros f f' H; cbn in *; [exact H|]. destruct H as (g & H & K). rewrite H. apply IH. exact K. }
  intros pr l1 a l2 f f' H. pose proof (R _ _ _ _ H) as E. revert f H E. induction l1 as [|b l IH]; intros f H E; cbn in *.
  - destruct H as (g & H & _). exists g. auto.
  - destruct H as (g & H & K). rewrite H in *. apply IH; assumption.
Qed.

(** The saves of one level that returned [o]: row 0 under the final time, or, with evaluation times, row i under time i; always with the
    final edges, coefficients, energies and weights. *)
Definition call_for (c : config) (u m : bool) (o : outcome) (w : R) (N : nat) (t : R) (i : nat) (a : save_call) : Prop :=
  saver_of c t u m = Ok (a_sv a) /\ a_w a = w /\ a_N a = N /\
  nth_error (out_xs o) i = Some (o_xs (a_o a)) /\ nth_error (out_phi o) i = Some (o_phi (a_o a)) /\
  nth_error (out_psi o) i = Some (o_psi (a_o a)) /\ o_e (a_o a) = concat (out_e o) /\ o_coeff (a_o a) = out_coeff o /\
  o_edges (a_o a) = out_edges o /\ o_ws (a_o a) = out_ws o /\ o_mus (a_o a) = out_mus o.
Definition times_of (c : config) : list (result R) :=
  if (c_eval_times c =? 0)%Z then [Ok (dec2R (c_tfinal c))] else map num (entries (c_eval_array c)).
Definition saves_of (c : config) (u m : bool) (o : outcome) (w : R) (N : nat) (l : list save_call) : Prop :=
  length l = length (times_of c) /\
  forall i a, nth_error l i = Some a -> exists t, nth_error (times_of c) i = Some (Ok t) /\ call_for c u m o w N t i a.

Lemma row_inv : forall o i r, row o i = Ok r ->
  nth_error (out_xs o) i = Some (o_xs r) /\ nth_error (out_phi o) i = Some (o_phi r) /\
  nth_error (out_psi o) i = Some (o_psi r) /\ o_e r = concat (out_e o) /\ o_coeff r = out_coeff o /\
  o_edges r = out_edges o /\ o_ws r = out_ws o /\ o_mus r = out_mus o.
Proof.
  intros o i r H. unfold row, getitem in H.
  destruct (nth_error (out_xs o) i); [|discriminate]. cbn [bind] in H.
  destruct (nth_error (out_phi o) i); [|discriminate]. cbn [bind] in H.
  destruct (nth_error (out_psi o) i); [|discriminate]. cbn [bind] in H. injection H as <-. cbn. auto 9.
Qed.

Lemma disk_save : forall pr sv r w N s2 e s s' f, m_disk s run_file = Some f ->
  on_disk (save_to_disk pr sv r w N s2 e) s = (Ok tt, s') ->
  exists f', save_solution pr sv r w N s2 e f = (Ok tt, f') /\ m_disk s' run_file = Some f'.
Proof.
  intros pr sv r w N s2 e s s' f Hf H. unfold on_disk, save_to_disk, on_file in H. rewrite Hf in H.
  destruct (save_solution pr sv r w N s2 e f) as [x f'] eqn:E. injection H as -> <-. exists f'. split; [reflexivity|].
  cbn. reflexivity.
Qed.

Lemma save_results_disk : forall pr c o w N s2 u m sv s s' f,
  (c_saving c =? 1)%Z = true -> saver_of c (dec2R (c_tfinal c)) u m = Ok sv -> m_disk s run_file = Some f ->
  save_results pr c sv o w N s2 u m s = (Ok tt, s') ->
  exists l f', saves_of c u m o w N l /\ ran pr l f f' /\ m_disk s' run_file = Some f'.
Proof.
  intros pr c o w N s2 u m sv s s' f Hs Hsv Hf H. unfold save_results in H. rewrite Hs in H. unfold saves_of, times_of.
  destruct (c_eval_times c =? 0)%Z.
  - ast H r sa E. injection E as E <-. destruct (disk_save _ _ _ _ _ _ _ _ _ _ Hf H) as (f' & S & D).
    exists [{| a_sv := sv; a_o := r; a_w := w; a_N := N; a_s2 := s2; a_eps := dec2R (c_epsilon c) |}], f'.
    split; [|split; [exists f'; split; [exact S|reflexivity]|exact D]].
    split; [reflexivity|]. intros [|[|i]] a Ha; try discriminate. injection Ha as <-. exists (dec2R (c_tfinal c)).
    split; [reflexivity|]. split; [exact Hsv|]. split; [reflexivity|]. split; [reflexivity|]. apply row_inv. exact E.
  - (* the loop over the evaluation times *)
    assert (K : forall es k s s' f, m_disk s run_file = Some f ->
      for_each (fun it v => t <<- pure (num v) ;; sv' <<- pure (saver_of c t u m) ;; r <<- pure (row o it) ;;
                on_disk (save_to_disk pr sv' r w N s2 (dec2R (c_epsilon c)))) k es s = (Ok tt, s') ->
      exists l f', length l = length es /\
        (forall i a, nth_error l i = Some a -> exists t, nth_error (map num es) i = Some (Ok t) /\ call_for c u m o w N t (k + i) a) /\
        ran pr l f f' /\ m_disk s' run_file = Some f').
    { clear. induction es as [|v es IH]; intros k s s' f Hf H; cbn [for_each] in H.
      - injection H as <-. exists nil, f. split; [reflexivity|]. split; [intros [|i] a Ha; discriminate|]. split; [reflexivity|exact Hf].
      - ast H r sa E. destruct r. ast E t sb E0. injection E0 as E0 <-. ast E sv' sb E2. injection E2 as E2 <-. ast E r sb E3. injection E3 as E3 <-.
        destruct (disk_save _ _ _ _ _ _ _ _ _ _ Hf E) as (f1 & S1 & D1).
        destruct (IH (S k) _ _ _ D1 H) as (l & f' & L1 & L2 & L3 & L4).
        exists ({| a_sv := sv'; a_o := r; a_w := w; a_N := N; a_s2 := s2; a_eps := dec2R (c_epsilon c) |} :: l), f'.
        split; [cbn; lia|]. split; [|split; [exists f1; split; [exact S1|exact L3]|exact L4]].
        intros [|i] a Ha.
        + injection Ha as <-. exists t. split; [cbn; rewrite E0; reflexivity|]. rewrite Nat.add_0_r.
          split; [exact E2|]. split; [reflexivity|]. split; [reflexivity|]. apply row_inv. exact E3.
        + destruct (L2 i a Ha) as (t' & T1 & T2). exists t'. split; [exact T1|]. replace (k + S i)%nat with (S k + i)%nat by lia. exact T2. }
    destruct (K _ _ _ _ _ Hf H) as (l & f' & L1 & L2 & L3 & L4). exists l, f'. split; [|auto].
    split; [rewrite map_length; exact L1|exact L2].
Qed.

(** Level [count], called with the solver's k-th call. *)
Definition level_saves (c : config) (u m : bool) (count : nat) (o : outcome) (l : list save_call) : Prop :=
  exists w N n M, x0_or_sigma c = Ok w /\ parameter_function (c_major c) (c_N_spaces c) (c_Ms c) count = Ok (n, M) /\
    count_of n = Ok N /\ saves_of c u m o w N l.

Lemma level_disk : forall pr solve c sv u m count na s s' f,
  (c_saving c =? 1)%Z = true -> saver_of c (dec2R (c_tfinal c)) u m = Ok sv -> m_disk s run_file = Some f ->
  nth_error (c_N_angles c) count = Some na ->
  level pr solve c sv u m count na s = (Ok tt, s') ->
  exists o l f', called solve c u m (m_calls s) count o /\ m_calls s' = S (m_calls s) /\ level_saves c u m count o l /\
    ran pr l f f' /\ m_disk s' run_file = Some f'.
Proof.
  intros pr solve c sv u m count na s s' f Hs Hsv Hf Hna H. unfold level in H.
  ast H r sa E. injection E as E <-. ast H r0 sa E0. injection E0 as E0 <-. ast H r1 sa E1. unfold get_wave in E1. injection E1 as E1 <-.
  ast H o sa E2. unfold call_solve in E2. injection E2 as E2 <-.
  ast H r3 sa E3. injection E3 as E3 <-. ast H r4 sa E4. injection E4 as E4 <-. ast H r5 sa E5. injection E5 as E5 <-.
  ast H r6 s0 E6. destruct r6.
  edestruct (save_results_disk pr c o) with (f := f) as (l & f' & S1 & S2 & S3); [exact Hs|exact Hsv| |exact E6|]; [exact Hf|].
  pose proof (do_saving _ _ _ _ _ _ _ _ _ _ _ _ E6) as (_ & _ & _ & D4). cbn in D4.
  exists o, l, f'. split; [|split; [|split; [|split; [exact S2|]]]].
  - eexists. split; [exact E2|]. cbn. destruct r as [N M]. cbn. auto.
  - assert (X : m_calls s' = m_calls s0).
    { ast H r7 s1 E7. unfold add_time in E7. destruct (getitem (m_r_times s0) count); [|discriminate].
      destruct (setitem _ _ _); [|discriminate]. injection E7 as _ <-.
      ast H r8 s2 E8. assert (m_calls s2 = m_calls s0) by (destruct (count =? _)%nat; injection E8 as _ <-; reflexivity).
      destruct (c_find_wave_loc c =? 1)%Z; [|injection H as <-; assumption].
      ast H r9 s3 E9. assert (s3 = s2) as ->.
      { destruct (_ && _)%bool; [|injection E9 as _ <-; reflexivity]. destruct (rev (entries (c_eval_array c))); [injection E9 as _ <-; reflexivity|].
        ast E9 r10 s4 E10. injection E10 as _ <-. injection E9 as _ <-. reflexivity. }
      unfold on_disk in H. destruct (on_file _ _ _) as [x d]. injection H as _ <-. cbn. assumption. }
    lia.
  - exists r3, r4, (fst r), (snd r). destruct r as [n M]. cbn [fst snd] in *. auto.
  - ast H r7 s1 E7. unfold add_time in E7. destruct (getitem (m_r_times s0) count); [|discriminate].
    destruct (setitem _ _ _); [|discriminate]. injection E7 as _ <-.
    ast H r8 s2 E8. assert (M2 : m_disk s2 run_file = Some f') by (destruct (count =? _)%nat; injection E8 as _ <-; exact S3).
    destruct (c_find_wave_loc c =? 1)%Z; [|injection H as <-; exact M2].
    ast H r9 s3 E9. assert (s3 = s2) as ->.
    { destruct (_ && _)%bool; [|injection E9 as _ <-; reflexivity]. destruct (rev (entries (c_eval_array c))); [injection E9 as _ <-; reflexivity|].
      ast E9 r10 s4 E10. injection E10 as _ <-. injection E9 as _ <-. reflexivity. }
    unfold on_disk, on_file in H. destruct (m_disk s2 wave_save_file) as [g|]; [|discriminate].
    destruct (save_wave_loc pr r9 (out_wave o) g) as [x g']. injection H as _ <-. cbn. exact M2.
Qed.

Lemma levels_disk : forall pr solve c sv u m l i s s' f,
  (c_saving c =? 1)%Z = true -> saver_of c (dec2R (c_tfinal c)) u m = Ok sv -> m_disk s run_file = Some f ->
  (forall j, (j < length l)%nat -> nth_error (c_N_angles c) (i + j) = nth_error l j) ->
  for_each (level pr solve c sv u m) i l s = (Ok tt, s') ->
  exists (out : nat -> outcome) (calls : nat -> list save_call) f',
    (forall j, (j < length l)%nat -> called solve c u m (m_calls s + j) (i + j) (out j) /\ level_saves c u m (i + j) (out j) (calls j)) /\
    m_calls s' = (m_calls s + length l)%nat /\
    ran pr (flat_map calls (seq 0 (length l))) f f' /\ m_disk s' run_file = Some f'.
Proof.
  intros pr solve c sv u m l. induction l as [|na l IH]; intros i s s' f Hs Hsv Hf HN H; cbn [for_each] in H.
  - injection H as <-. exists (fun _ => {| out_xs := nil; out_phi := nil; out_psi := nil; out_e := nil; out_coeff := nil;
      out_edges := nil; out_ws := nil; out_mus := nil; out_wave := {| w_t := nil; w_left := nil; w_right := nil; w_T := nil |};
      out_time := 0 |}), (fun _ => nil), f. cbn. split; [intros j Hj; lia|]. split; [lia|]. split; [reflexivity|exact Hf].
  - ast H r s1 E. destruct r.
    assert (Hn0 : nth_error (c_N_angles c) i = Some na) by (specialize (HN 0%nat ltac:(cbn; lia)); rewrite Nat.add_0_r in HN; exact HN).
    destruct (level_disk _ _ _ _ _ _ _ _ _ _ f Hs Hsv Hf Hn0 E) as (o & cl & f1 & C1 & C2 & C3 & C4 & C5).
    destruct (IH (S i) s1 s' f1 Hs Hsv C5) as (out & calls & f' & O1 & O2 & O3 & O4); [|exact H|].
    { intros j Hj. specialize (HN (S j) ltac:(cbn; lia)). cbn [nth_error] in HN. rewrite <- HN. f_equal. lia. }
    exists (fun j => match j with 0%nat => o | S j' => out j' end), (fun j => match j with 0%nat => cl | S j' => calls j' end), f'.
    cbn [length]. split; [|split; [lia|split; [|exact O4]]].
    + intros [|j] Hj; [rewrite !Nat.add_0_r; auto|].
      replace (m_calls s + S j)%nat with (m_calls s1 + j)%nat by lia. replace (i + S j)%nat with (S i + j)%nat by lia. apply O1. lia.
    + cbn [seq flat_map]. rewrite <- seq_shift. rewrite flat_map_concat_map, map_map, <- flat_map_concat_map.
      eapply ran_app; [exact C4|exact O3].
Qed.

Lemma runs_disk : forall pr solve c sv u m n i s s' f,
  (c_saving c =? 1)%Z = true -> saver_of c (dec2R (c_tfinal c)) u m = Ok sv -> m_disk s run_file = Some f ->
  for_each (fun _ _ => for_each (level pr solve c sv u m) 0 (c_N_angles c)) i (repeat tt n) s = (Ok tt, s') ->
  let L := length (c_N_angles c) in
  exists (out : nat -> nat -> outcome) (calls : nat -> nat -> list save_call) f',
    (forall r j, (r < n)%nat -> (j < L)%nat ->
       called solve c u m (m_calls s + (r * L + j)) j (out r j) /\ level_saves c u m j (out r j) (calls r j)) /\
    ran pr (flat_map (fun r => flat_map (calls r) (seq 0 L)) (seq 0 n)) f f' /\ m_disk s' run_file = Some f'.
Proof.
  intros pr solve c sv u m n. induction n as [|n IH]; intros i s s' f Hs Hsv Hf H L; cbn [repeat for_each] in H.
  - injection H as <-. exists (fun _ _ => {| out_xs := nil; out_phi := nil; out_psi := nil; out_e := nil; out_coeff := nil;
      out_edges := nil; out_ws := nil; out_mus := nil; out_wave := {| w_t := nil; w_left := nil; w_right := nil; w_T := nil |};
      out_time := 0 |}), (fun _ _ => nil), f. split; [intros; lia|]. split; [reflexivity|exact Hf].
  - ast H r s1 E. destruct r.
    destruct (levels_disk _ _ _ _ _ _ (c_N_angles c) 0 _ _ f Hs Hsv Hf ltac:(intros; reflexivity) E) as (o & cl & f1 & C1 & C2 & C3 & C4).
    destruct (IH (S i) s1 s' f1 Hs Hsv C4 H) as (out & calls & f' & O1 & O2 & O3). fold L in C1, C2, C3, O1, O2.
    exists (fun r => match r with 0%nat => o | S r' => out r' end), (fun r => match r with 0%nat => cl | S r' => calls r' end), f'.
    split; [|split; [|exact O3]].
    + intros [|r] j Hr Hj; cbn [Nat.mul].
      * apply C1. exact Hj.
      * replace (m_calls s + (L + r * L + j))%nat with (m_calls s1 + (r * L + j))%nat by lia. apply O1; lia.
    + cbn [seq flat_map]. rewrite <- seq_shift. rewrite (flat_map_concat_map _ (map S (seq 0 n))), map_map, <- flat_map_concat_map.
      eapply ran_app; [exact C3|exact O2].
Qed.

Lemma load_wave_disk : forall pr c s s', load_wave pr c s = (Ok tt, s') -> m_disk s' run_file = m_disk s run_file.
Proof.
  intros pr c s s' H. unfold load_wave in H. ast H r sa E. injection E as E <-.
  destruct (r =? 1)%Z; [|injection H as <-; reflexivity].
  ast H r0 sa E0. injection E0 as E0 <-.
  assert (Fe : forall name st st', (w <<- on_disk (on_file wave_load_file
                (call_wavepoints pr {| l_problem := c_problem c; l_source := name; l_rad_or_transfer := "transfer";
                                       l_c := c_ratio c; l_cv := dec2R (c_cv0 c) |} (dec2R (c_tfinal c)))) ;;
         set_wave (Some w)) st = (Ok tt, st') -> m_disk st' run_file = m_disk st run_file).
  { intros name st st' K. ast K w sb E1. injection K as <-. cbn. unfold on_disk, on_file in E1.
    destruct (m_disk st wave_load_file) as [g|]; [|discriminate]. destruct (call_wavepoints _ _ _ g) as [x g'].
    injection E1 as _ <-. reflexivity. }
  destruct (c_thick c && (r0 =? 1)%Z)%bool; [exact (Fe _ _ _ H)|].
  destruct (c_thick c); [|injection H as <-; reflexivity].
  ast H r1 sb E1. injection E1 as E1 <-. destruct (r1 =? 1)%Z; [exact (Fe _ _ _ H)|injection H as <-; reflexivity].
Qed.

Lemma main_disk : forall pr solve c u m s s' f,
  (c_saving c =? 1)%Z = true -> m_disk s run_file = Some f -> main pr solve c u m s = (Ok tt, s') ->
  let L := length (c_N_angles c) in let n := Z.to_nat (c_N_runs c) in
  exists (out : nat -> nat -> outcome) (calls : nat -> nat -> list save_call) f',
    (forall r j, (r < n)%nat -> (j < L)%nat ->
       called solve c u m (m_calls s + (r * L + j)) j (out r j) /\ level_saves c u m j (out r j) (calls r j)) /\
    ran pr (flat_map (fun r => flat_map (calls r) (seq 0 L)) (seq 0 n)) f f' /\ m_disk s' run_file = Some f'.
Proof.
  intros pr solve c u m s s' f Hs Hf H L n. unfold main in H. ast H sv sa E. injection E as E <-.
  ast H r0 sa E0. assert (sa = s) as -> by (destruct (c_benchmarking c =? 1)%Z; [discriminate|injection E0 as _ <-; reflexivity]).
  ast H r1 sa E1. destruct r1. destruct (load_wave_spec _ _ _ _ E1) as (_ & _ & C).
  pose proof (load_wave_disk _ _ _ _ E1) as D. rewrite Hf in D.
  destruct (runs_disk _ _ _ _ _ _ _ _ _ _ f Hs E D H) as (out & calls & f' & O1 & O2 & O3).
  rewrite C in O1. exists out, calls, f'. auto.
Qed.

(** What the solver returns has one flux value per point (and one energy per point unless the problem is 'transport') and at least one
    row of coefficients. *)
Definition well_shaped (c : config) (o : outcome) : Prop :=
  out_coeff o <> nil /\
  forall i xs phi, nth_error (out_xs o) i = Some xs -> nth_error (out_phi o) i = Some phi ->
    length phi = length xs /\ (c_problem c <> "transport" -> length (concat (out_e o)) = length xs).

Lemma saver_inv : forall c t u m sv, saver_of c t u m = Ok sv ->
  In (s_source sv) source_names /\ s_tfinal sv = t /\ s_uncollided sv = u /\ s_moving sv = m /\ s_c sv = c_ratio c /\
  s_problem sv = c_problem c /\ s_epsilon sv = dec2R (c_epsilon c) /\ source_name_of (c_source_type c) = Ok (s_source sv).
Proof.
  intros c t u m sv H. unfold saver_of, save_output in H. destruct (source_name_of (c_source_type c)) as [name|] eqn:E; [|discriminate].
  cbn [bind] in H. injection H as <-. cbn [s_source s_tfinal s_uncollided s_moving s_c s_problem s_epsilon]. split; [|auto 9]. unfold source_name_of in E.
  destruct (argmin _) as [i|]; [|discriminate]. cbn [bind] in E. unfold getitem in E.
  destruct (nth_error source_names i) eqn:Q; [|discriminate]. injection E as <-. eapply nth_error_In. exact Q.
Qed.

(** The cell count of a level. *)
Definition cells_of (c : config) (j N : nat) : Prop :=
  exists n M, parameter_function (c_major c) (c_N_spaces c) (c_Ms c) j = Ok (n, M) /\ count_of n = Ok N.

Lemma saved_loads : forall pr solve c u m s s' f j i t N,
  tame pr -> c_saving c = 1%Z -> (1 <= c_N_runs c)%Z -> m_disk s run_file = Some f ->
  (forall k a o, solve k c a = Ok o -> well_shaped c o) ->
  main pr solve c u m s = (Ok tt, s') ->
  let L := length (c_N_angles c) in let n := Z.to_nat (c_N_runs c) in
  (j < L)%nat -> cells_of c j N -> (forall j' N', (j < j' < L)%nat -> cells_of c j' N' -> N' <> N) ->
  nth_error (times_of c) i = Some (Ok t) ->
  (forall i' t', (i < i')%nat -> nth_error (times_of c) i' = Some (Ok t') -> pr t' <> pr t) ->
  exists o a w f', called solve c u m (m_calls s + ((n - 1) * L + j)) j o /\ x0_or_sigma c = Ok w /\
    call_for c u m o w N t i a /\ m_disk s' run_file = Some f' /\
    forall ld M mat, load_folder pr ld = save_folder pr (a_sv a) -> Ok (l_source ld) = source_name_of (c_source_type c) -> l_c ld = c_ratio c ->
      exists r, call_sol pr ld t M w N mat u m (dec2R (c_epsilon c)) f' = Ok r /\
        returned (c_problem c) (a_o a) (String.eqb (l_rad_or_transfer ld) "transfer") mat r.
Proof.
  intros pr solve c u m s s' f j i t N T Hs Hn Hf HW H L n Hj HN HD Ht HDt.
  apply Z.eqb_eq in Hs.
  destruct (main_disk pr solve c u m s s' f Hs Hf H) as (out & calls & f' & O1 & O2 & O3). fold L n in O1, O2.
  assert (Hn1 : (n - 1 < n)%nat) by (unfold n; lia).
  destruct (O1 (n - 1)%nat j Hn1 Hj) as (Ca & w & N0 & n0 & M0 & Ew & Ep & Ec & Sv).
  assert (N0 = N) as -> by (destruct HN as (n1 & M1 & Ep1 & Ec1); congruence).
  destruct Sv as (Sl & Si).
  assert (Ha : exists a, nth_error (calls (n - 1)%nat j) i = Some a).
  { destruct (nth_error (calls (n - 1)%nat j) i) as [a|] eqn:Q; [eauto|]. apply nth_error_None in Q.
    assert (i < length (times_of c))%nat by (apply nth_error_Some; congruence). lia. }
  destruct Ha as [a Ha]. destruct (Si i a Ha) as (t0 & Et & Cf). assert (t0 = t) as -> by congruence.
  exists (out (n - 1)%nat j), a, w, f'. split; [exact Ca|]. split; [exact Ew|]. split; [exact Cf|]. split; [exact O3|].
  intros ld M mat EF ES EC.
  destruct Cf as (Csv & Cw & CN & Cx & Cp & Cpsi & Ce & Cc & Ced & Cws & Cm).
  destruct (saver_inv _ _ _ _ _ Csv) as (I1 & I2 & I3 & I4 & I5 & I6 & I7 & I8).
  (* the sequence of saves around this one *)
  destruct (nth_error_split _ _ Ha) as (b1 & b2 & Eb & Lb).
  set (before := (flat_map (fun r => flat_map (calls r) (seq 0 L)) (seq 0 (n - 1)) ++ flat_map (calls (n - 1)%nat) (seq 0 j) ++ b1)%list).
  set (later := (b2 ++ flat_map (calls (n - 1)%nat) (seq (S j) (L - S j)))%list).
  assert (Eq : flat_map (fun r => flat_map (calls r) (seq 0 L)) (seq 0 n) = (before ++ a :: later)%list).
  { replace n with ((n - 1) + 1)%nat at 1 by lia. rewrite seq_app, flat_map_app. cbn [seq flat_map Nat.add]. rewrite app_nil_r.
    assert (E2 : flat_map (calls (n - 1)%nat) (seq 0 L) = (flat_map (calls (n - 1)%nat) (seq 0 j) ++ (b1 ++ a :: b2) ++ flat_map (calls (n - 1)%nat) (seq (S j) (L - S j)))%list).
    { replace L with (j + S (L - S j))%nat at 1 by lia. rewrite (seq_app j (S (L - S j)) 0), flat_map_app. cbn [seq flat_map Nat.add]. rewrite Eb. reflexivity. }
    rewrite E2. unfold before, later.
    rewrite <- !app_assoc. cbn [app]. reflexivity. }
  rewrite Eq in O2. destruct (ran_split _ _ _ _ _ _ O2) as (f1 & D1 & ->).
  destruct Ca as (ac & Ea & _). destruct (HW _ _ _ Ea) as (Wc & Wl).
  destruct (Wl i _ _ Cx Cp) as (W1 & W2).
  assert (Lat : forall b, In b later -> In (s_source (a_sv b)) source_names /\
            save_key pr (a_sv b) (a_w b) (a_N b) <> save_key pr (a_sv a) (a_w a) (a_N a)).
  { intros b Hb. unfold later in Hb. apply in_app_or in Hb as [Hb|Hb].
    - apply In_nth_error in Hb as [k Hk].
      assert (Q : nth_error (calls (n - 1)%nat j) (i + S k) = Some b).
      { rewrite Eb, nth_error_app2 by lia. replace (i + S k - length b1)%nat with (S k) by lia. exact Hk. }
      destruct (Si _ _ Q) as (t' & Et' & (Bsv & Bw & BN & _)). destruct (saver_inv _ _ _ _ _ Bsv) as (B1 & B2 & _).
      split; [exact B1|]. intros K. unfold save_key in K. apply key_inj in K; [|exact T|exact B1|exact I1].
      destruct K as (_ & _ & _ & _ & K & _). apply (HDt (i + S k)%nat t'); [lia|exact Et'|]. congruence.
    - apply in_flat_map in Hb as (j' & Hj' & Hb). apply in_seq in Hj'.
      destruct (O1 (n - 1)%nat j' Hn1 ltac:(lia)) as (_ & w' & N' & n1 & M1 & Ew' & Ep' & Ec' & (Sl' & Si')).
      apply In_nth_error in Hb as [k Hk]. destruct (Si' _ _ Hk) as (t' & Et' & (Bsv & Bw & BN & _)).
      destruct (saver_inv _ _ _ _ _ Bsv) as (B1 & B2 & _).
      split; [exact B1|]. intros K. unfold save_key in K. apply key_inj in K; [|exact T|exact B1|exact I1].
      destruct K as (_ & _ & _ & K & _). apply (HD j' N'); [lia|exists n1, M1; auto|congruence]. }
  rewrite <- I7. rewrite <- I2, <- Cw, <- CN, <- I3, <- I4. rewrite <- I6.
  apply (C57_last_save_wins pr before a later f f1 ld M mat T I1).
  - apply Forall_forall. intros b Hb. apply Lat. exact Hb.
  - exact W1.
  - rewrite I6, Ce. exact W2.
  - rewrite Cc. exact Wc.
  - exact D1.
  - apply Forall_forall. intros b Hb. apply Lat. exact Hb.
  - exact EF.
  - congruence.
  - congruence.
Qed.

(** * C94: what a run leaves on disk *)

(** Without evaluation times, with saving on and a run file present: after a run that ends normally, the solution of every level whose
    cell count no later level repeats can be loaded, and it is the one of the last repetition. *)
Theorem C94_saved_level_can_be_loaded : forall pr solve c u m s s' f j N,
  tame pr -> c_saving c = 1%Z -> c_eval_times c = 0%Z -> (1 <= c_N_runs c)%Z -> m_disk s run_file = Some f ->
  (forall k a o, solve k c a = Ok o -> well_shaped c o) ->
  main pr solve c u m s = (Ok tt, s') ->
  let L := length (c_N_angles c) in let n := Z.to_nat (c_N_runs c) in
  (j < L)%nat -> cells_of c j N -> (forall j' N', (j < j' < L)%nat -> cells_of c j' N' -> N' <> N) ->
  exists o a w f', called solve c u m (m_calls s + ((n - 1) * L + j)) j o /\ x0_or_sigma c = Ok w /\
    call_for c u m o w N (dec2R (c_tfinal c)) 0 a /\ m_disk s' run_file = Some f' /\
    forall ld M mat, load_folder pr ld = save_folder pr (a_sv a) -> Ok (l_source ld) = source_name_of (c_source_type c) -> l_c ld = c_ratio c ->
      exists r, call_sol pr ld (dec2R (c_tfinal c)) M w N mat u m (dec2R (c_epsilon c)) f' = Ok r /\
        returned (c_problem c) (a_o a) (String.eqb (l_rad_or_transfer ld) "transfer") mat r.
Proof.
  intros pr solve c u m s s' f j N T Hs He Hn Hf HW H L n Hj HN HD.
  apply (saved_loads pr solve c u m s s' f j 0 (dec2R (c_tfinal c)) N T Hs Hn Hf HW H Hj HN HD).
  - unfold times_of. rewrite He. reflexivity.
  - intros i' t' Hi Hx. unfold times_of in Hx. rewrite He in Hx. destruct i' as [|[|i']]; [lia|discriminate|discriminate].
Qed.
Print Assumptions C94_saved_level_can_be_loaded.

(** A study in orders uses one cell count for all levels, so only the last level survives: the parameters of any level load the last
    level's solution. *)
Theorem C94_order_study_keeps_the_last_level : forall pr solve c u m s s' f j N,
  tame pr -> c_saving c = 1%Z -> c_eval_times c = 0%Z -> (1 <= c_N_runs c)%Z -> m_disk s run_file = Some f ->
  (forall k a o, solve k c a = Ok o -> well_shaped c o) ->
  main pr solve c u m s = (Ok tt, s') ->
  let L := length (c_N_angles c) in let n := Z.to_nat (c_N_runs c) in
  c_major c = "Ms" -> (j < L)%nat -> cells_of c j N ->
  exists o a w f', called solve c u m (m_calls s + ((n - 1) * L + (L - 1))) (L - 1) o /\ x0_or_sigma c = Ok w /\
    call_for c u m o w N (dec2R (c_tfinal c)) 0 a /\ m_disk s' run_file = Some f' /\
    forall ld M mat, load_folder pr ld = save_folder pr (a_sv a) -> Ok (l_source ld) = source_name_of (c_source_type c) -> l_c ld = c_ratio c ->
      exists r, call_sol pr ld (dec2R (c_tfinal c)) M w N mat u m (dec2R (c_epsilon c)) f' = Ok r /\
        returned (c_problem c) (a_o a) (String.eqb (l_rad_or_transfer ld) "transfer") mat r.
Proof.
  intros pr solve c u m s s' f j N T Hs He Hn Hf HW H L n Hm Hj HN.
  assert (Hcell : cells_of c (L - 1) N).
  { assert (HL : (L - 1 < L)%nat) by lia.
    destruct (main_disk pr solve c u m s s' f (proj2 (Z.eqb_eq _ _) Hs) Hf H) as (out & calls & f' & O1 & _). fold L n in O1.
    assert (Hn1 : (n - 1 < n)%nat) by (unfold n; lia).
    destruct (O1 _ _ Hn1 HL) as (_ & w & N0 & n0 & M0 & _ & Ep & Ec & _).
    exists n0, M0. split; [exact Ep|]. destruct HN as (n1 & M1 & Ep1 & Ec1). unfold parameter_function in Ep, Ep1. rewrite Hm in Ep, Ep1. cbn in Ep, Ep1.
    destruct (getitem (c_N_spaces c) 1) as [x|]; [|discriminate]. cbn [bind] in Ep, Ep1.
    destruct (getitem (c_Ms c) (L - 1)); [|discriminate]. destruct (getitem (c_Ms c) j); [|discriminate]. cbn [bind] in Ep, Ep1. congruence. }
  apply (C94_saved_level_can_be_loaded pr solve c u m s s' f (L - 1) N T Hs He Hn Hf HW H).
  - fold L. lia.
  - exact Hcell.
  - intros j' N' Hj'. exfalso. fold L in Hj'. lia.
Qed.
Print Assumptions C94_order_study_keeps_the_last_level.

(** * C95: time series *)

(** With evaluation times whose later members print differently: time i of the level can be loaded with points, flux and angular flux of time
    i, and the edges, coefficients, weights and energies of the end of the run. *)
Theorem C95_time_series_saves : forall pr solve c u m s s' f j N i t,
  tame pr -> c_saving c = 1%Z -> c_eval_times c <> 0%Z -> (1 <= c_N_runs c)%Z -> m_disk s run_file = Some f ->
  (forall k a o, solve k c a = Ok o -> well_shaped c o) ->
  main pr solve c u m s = (Ok tt, s') ->
  let L := length (c_N_angles c) in let n := Z.to_nat (c_N_runs c) in
  (j < L)%nat -> cells_of c j N -> (forall j' N', (j < j' < L)%nat -> cells_of c j' N' -> N' <> N) ->
  nth_error (map num (entries (c_eval_array c))) i = Some (Ok t) ->
  (forall i' t', (i < i')%nat -> nth_error (map num (entries (c_eval_array c))) i' = Some (Ok t') -> pr t' <> pr t) ->
  exists o w f' folder, called solve c u m (m_calls s + ((n - 1) * L + j)) j o /\ x0_or_sigma c = Ok w /\
    m_disk s' run_file = Some f' /\
    forall ld M mat, load_folder pr ld = folder -> Ok (l_source ld) = source_name_of (c_source_type c) -> l_c ld = c_ratio c ->
      exists r xs phi psi, call_sol pr ld t M w N mat u m (dec2R (c_epsilon c)) f' = Ok r /\
        nth_error (out_xs o) i = Some xs /\ nth_error (out_phi o) i = Some phi /\ nth_error (out_psi o) i = Some psi /\
        r_xs r = map f32 xs /\ r_phi r = map f32 phi /\ r_psi r = A2 psi /\
        r_edges r = A1 (out_edges o) /\ r_ws r = A1 (out_ws o) /\ r_mus r = A1 (out_mus o) /\
        (l_rad_or_transfer ld <> "transfer" -> r_coeff r = Some (A3 (out_coeff o))).
Proof.
  intros pr solve c u m s s' f j N i t T Hs He Hn Hf HW H L n Hj HN HD Ht HDt.
  assert (Et : times_of c = map num (entries (c_eval_array c))).
  { unfold times_of. destruct (Z.eqb_spec (c_eval_times c) 0); [congruence|reflexivity]. }
  destruct (saved_loads pr solve c u m s s' f j i t N T Hs Hn Hf HW H Hj HN HD) as (o & a & w & f' & A1' & A2' & Cf & A4 & A5).
  - rewrite Et. exact Ht.
  - rewrite Et. exact HDt.
  - exists o, w, f', (save_folder pr (a_sv a)). split; [exact A1'|]. split; [exact A2'|]. split; [exact A4|].
    intros ld M mat E1 E2 E3. destruct (A5 ld M mat E1 E2 E3) as (r & C & (V1 & V2 & V3 & V4 & V5 & V6 & V7 & V8 & _)).
    destruct Cf as (Csv & Cw & CN & Cx & Cp & Cpsi & Ce & Cc & Ced & Cws & Cm).
    exists r, (o_xs (a_o a)), (o_phi (a_o a)), (o_psi (a_o a)). split; [exact C|]. split; [exact Cx|]. split; [exact Cp|]. split; [exact Cpsi|].
    split; [exact V1|]. split; [exact V2|]. split; [exact V4|]. split; [congruence|]. split; [congruence|]. split; [congruence|].
    intros Nt. rewrite V8, Cc; [reflexivity|]. apply String.eqb_neq. exact Nt.
Qed.
Print Assumptions C95_time_series_saves.

(** * C59: what the key forgets *)

(** Runs that agree in the problem, the source vector, the ratio, the heat capacity, epsilon and the width get the same saver, so with equal cell
    counts the same folder and key, whatever their orders, numbers of directions, cross sections, strengths, tolerances, ... *)
Theorem C59_key_forgets : forall pr c1 c2 t u m sv1 sv2 w1 w2 N,
  c_problem c1 = c_problem c2 -> c_source_type c1 = c_source_type c2 -> c_ratio c1 = c_ratio c2 -> c_cv0 c1 = c_cv0 c2 ->
  c_epsilon c1 = c_epsilon c2 -> c_x0 c1 = c_x0 c2 -> c_sigma c1 = c_sigma c2 ->
  saver_of c1 t u m = Ok sv1 -> saver_of c2 t u m = Ok sv2 -> x0_or_sigma c1 = Ok w1 -> x0_or_sigma c2 = Ok w2 ->
  save_folder pr sv1 = save_folder pr sv2 /\ save_key pr sv1 w1 N = save_key pr sv2 w2 N.
Proof.
  intros pr c1 c2 t u m sv1 sv2 w1 w2 N E1 E2 E3 E4 E5 E6 E7 H1 H2 X1 X2.
  unfold saver_of in *. rewrite E1, E2, E3, E4, E5 in H1. assert (sv1 = sv2) as -> by congruence.
  unfold x0_or_sigma in *. rewrite E6, E7 in X1. assert (w1 = w2) as -> by congruence. auto.
Qed.
Print Assumptions C59_key_forgets.

(** One entry of one section replaced. *)
Definition edit (sec k : string) (v : yval) (y : yval) : yval :=
  match y with
  | YDict secs => YDict (map (fun kv : string * yval => if String.eqb (fst kv) sec then
      (fst kv, match snd kv with YDict d => YDict (map (fun e : string * yval => if String.eqb (fst e) k then (fst e, v) else e) d) | z => z end)
      else kv) secs)
  | z => z
  end.
(** The shipped square pulse and the same with twice the cross sections, three times the strength, another order and other directions: two
    different configurations with one key. *)
Definition other_run : yval :=
  edit "all" "sigma_t" (YFloat 2 0) (edit "all" "sigma_s" (YFloat 2 0) (edit "all" "Ms" (YList [YInt 5; YInt 6])
    (edit "square_IC" "source_strength" (YFloat 3 0) (edit "square_IC" "N_angles" (YList [YInt 2; YInt 8]) yaml_transport)))).
Example C59_ex :
  match load "square_IC" yaml_transport yaml_mesh_parameters, load "square_IC" other_run yaml_mesh_parameters with
  | Ok c1, Ok c2 =>
      c_problem c1 = c_problem c2 /\ c_source_type c1 = c_source_type c2 /\ c_cv0 c1 = c_cv0 c2 /\ c_epsilon c1 = c_epsilon c2 /\
      c_x0 c1 = c_x0 c2 /\ c_sigma c1 = c_sigma c2 /\
      c_Ms c1 <> c_Ms c2 /\ c_N_angles c1 <> c_N_angles c2 /\ c_strength c1 <> c_strength c2 /\ c_sigma_t c1 <> c_sigma_t c2
  | _, _ => False
  end.
Proof. vm_compute. repeat split; discriminate. Qed.

(** The loader's order argument changes nothing. *)
Theorem C59_loader_ignores_the_order : forall pr ld t M1 M2 w N mat u m e f,
  call_sol pr ld t M1 w N mat u m e f = call_sol pr ld t M2 w N mat u m e f.
Proof. reflexivity. Qed.
Print Assumptions C59_loader_ignores_the_order.

(** Two different runs, one stored: loading with the order of the first gives the second. *)
Theorem C59_runs_are_told_apart_refuted : exists pr c1 c2 t u m sv w N o1 o2 f1 f2 ld r,
  load "square_IC" yaml_transport yaml_mesh_parameters = Ok c1 /\ load "square_IC" other_run yaml_mesh_parameters = Ok c2 /\
  c_Ms c1 <> c_Ms c2 /\
  saver_of c1 t u m = Ok sv /\ saver_of c2 t u m = Ok sv /\ x0_or_sigma c1 = Ok w /\ x0_or_sigma c2 = Ok w /\
  save_solution pr sv o1 w N false 1 (Group nil) = (Ok tt, f1) /\ save_solution pr sv o2 w N false 1 f1 = (Ok tt, f2) /\
  load_folder pr ld = save_folder pr sv /\ l_source ld = s_source sv /\ l_c ld = s_c sv /\
  call_sol pr ld t 3 w N "" u m (s_epsilon sv) f2 = Ok r /\ r_edges r = A1 (o_edges o2) /\ o_edges o1 <> o_edges o2.
Proof.
  assert (L1 : exists c1, load "square_IC" yaml_transport yaml_mesh_parameters = Ok c1).
  { apply (C64_only_square_pulse_loads "transport" yaml_transport "square_IC"); [cbn; auto 20|cbn; auto|auto]. }
  destruct L1 as [c1 L1].
  pose proof C59_ex as X. rewrite L1 in X. destruct (load "square_IC" other_run yaml_mesh_parameters) as [c2|] eqn:L2; [|contradiction].
  destruct X as (P1 & P2 & P3 & P4 & P5 & P6 & P7 & P8 & P9 & P10).
  assert (R1 : c_ratio c1 = c_ratio c2).
  { destruct (C92_loaded_configuration _ _ _ _ L1) as ((Z1 & Q1) & _). destruct (C92_loaded_configuration _ _ _ _ L2) as ((Z2 & Q2) & _).
    assert (S1 : c_sigma_t c1 = c_sigma_s c1) by (pose proof L1 as Q; vm_compute in Q; injection Q as <-; reflexivity).
    assert (S2 : c_sigma_t c2 = c_sigma_s c2) by (pose proof L2 as Q; vm_compute in Q; injection Q as <-; reflexivity).
    rewrite Q1, Q2, <- S1, <- S2. unfold Rdiv. rewrite !Rinv_r by assumption. reflexivity. }
  assert (Sv : exists sv, saver_of c1 1 true true = Ok sv).
  { assert (st : c_source_type c1 = [0; 1; 0; 0; 0; 0; 0; 0; 0; 0; 0; 0; 0; 0; 0]%Z) by (pose proof L1 as Q; vm_compute in Q; injection Q as <-; reflexivity).
    unfold saver_of. rewrite st. eexists. reflexivity. }
  destruct Sv as [sv Sv].
  assert (Sv2 : saver_of c2 1 true true = Ok sv) by (unfold saver_of in *; rewrite <- P1, <- P2, <- P3, <- P4, <- R1; exact Sv).
  assert (W : exists w, x0_or_sigma c1 = Ok w).
  { pose proof L1 as Q. vm_compute in Q. injection Q as <-. eexists. reflexivity. }
  destruct W as [w W]. assert (W2 : x0_or_sigma c2 = Ok w) by (unfold x0_or_sigma in *; rewrite <- P5, <- P6; exact W).
  destruct (saver_inv _ _ _ _ _ Sv) as (I1 & I2 & I3 & I4 & I5 & I6 & I7 & I8).
  assert (Pr : s_problem sv = "transport") by (rewrite I6; pose proof L1 as Q; vm_compute in Q; injection Q as <-; reflexivity).
  pose (o := fun z => {| o_xs := [1]; o_phi := [1]; o_e := [1]; o_coeff := [[[1]]]; o_edges := [z]; o_ws := [1]; o_psi := [[1]]; o_mus := [1] |}).
  pose (call1 := fun z => {| a_sv := sv; a_o := o z; a_w := w; a_N := 4%nat; a_s2 := false; a_eps := 1 |}).
  assert (Fit : forall z, fits (call1 z)).
  { intros z. split; [exact I1|]. split; [left; reflexivity|]. intros Q. exfalso. apply Q. exact Pr. }
  destruct (C57_saves_succeed ex_print nil (call1 0) ex_tame (Forall_nil _) (Fit 0)) as [f1 S1]. cbn [after] in S1.
  destruct (C57_saves_succeed ex_print [call1 0] (call1 1) ex_tame (Forall_cons _ (Fit 0) (Forall_nil _)) (Fit 1)) as [f2 S2].
  cbn [after] in S2. rewrite S1 in S2. cbn [snd] in S2.
  pose (ld := {| l_problem := "transport"; l_source := s_source sv; l_rad_or_transfer := "rad"; l_c := s_c sv; l_cv := 0 |}).
  destruct (C56_save_then_load ex_print sv (o 1) w 4 false 1 f1 f2 ld 3 "" ex_tame I1 eq_refl) as (r & C & V).
  - intros Q. exfalso. apply Q. exact Pr.
  - discriminate.
  - exact S2.
  - unfold save_folder. rewrite Pr. reflexivity.
  - reflexivity.
  - reflexivity.
  - rewrite I2, I3, I4 in C.
    exists ex_print, c1, c2, 1, true, true, sv, w, 4%nat, (o 0), (o 1), f1, f2, ld, r.
    split; [exact L1|]. split; [reflexivity|]. split; [exact P7|]. split; [exact Sv|]. split; [exact Sv2|]. split; [exact W|]. split; [exact W2|].
    split; [exact S1|]. split; [exact S2|]. split; [unfold save_folder; rewrite Pr; reflexivity|]. split; [reflexivity|]. split; [reflexivity|].
    split; [exact C|]. split; [apply V|]. cbn. intros Q. injection Q as Q. lra.
Qed.
Print Assumptions C59_runs_are_told_apart_refuted.

(** The assumptions of C94 and C95 hold of runs: the shipped square pulse, two levels (3 and 15 cells), saving on; and the same with evaluation times. *)
Definition shaped_solve (k : nat) (c : config) (a : call) : result outcome :=
  Ok {| out_xs := [[0; 1]; [0; 1]]; out_phi := [[1; 1]; [1; 1]]; out_psi := [[[1]]; [[2]]]; out_e := [[0]; [0]]; out_coeff := [[[1]]];
        out_edges := [0; 1]; out_ws := [1]; out_mus := [0];
        out_wave := {| w_t := nil; w_left := nil; w_right := nil; w_T := nil |}; out_time := 1 |}.
Definition empty_run_file : disk := fun n => if String.eqb n run_file then Some (Group nil) else None.
Example C94_ex :
  match load "square_IC" yaml_transport yaml_mesh_parameters with
  | Ok c => c_saving c = 1%Z /\ c_eval_times c = 0%Z /\ c_N_runs c = 1%Z /\ cells_of c 0 3 /\ cells_of c 1 15 /\
            length (c_N_angles c) = 2%nat /\
            (forall k a o, shaped_solve k c a = Ok o -> well_shaped c o) /\
            fst (main toy_print shaped_solve c true true (new_solver c empty_run_file 0)) = Ok tt
  | Err _ => False
  end.
Proof.
  destruct (load _ _ _) as [c|] eqn:E; [|vm_compute in E; discriminate].
  split; [vm_compute in E; injection E as <-; reflexivity|]. split; [vm_compute in E; injection E as <-; reflexivity|].
  split; [vm_compute in E; injection E as <-; reflexivity|].
  split; [vm_compute in E; injection E as <-; eexists _, _; split; reflexivity|].
  split; [vm_compute in E; injection E as <-; eexists _, _; split; reflexivity|].
  split; [vm_compute in E; injection E as <-; reflexivity|].
  split; [intros k a o H; injection H as <-; split; [discriminate|]; intros [|[|i]] xs phi Hx Hp; cbn in Hx, Hp;
    [injection Hx as <-; injection Hp as <-; cbn; auto|injection Hx as <-; injection Hp as <-; cbn; auto|destruct i; discriminate]|].
  assert (U : exists b, Reqb (dec2R (c_epsilon c)) 1 = b) by eauto. destruct U as [b U].
  vm_compute in E. injection E as <-. cbn [c_epsilon] in U.
  destruct b; lazy -[Reqb dec2R f32 Rplus Rdiv IZR]; rewrite !U; lazy -[Reqb dec2R f32 Rplus Rdiv IZR]; reflexivity.
Qed.
(** One entry at the top level replaced. *)
Definition edit_top (k : string) (v : yval) (y : yval) : yval :=
  match y with YDict secs => YDict (map (fun e : string * yval => if String.eqb (fst e) k then (fst e, v) else e) secs) | z => z end.
Example C95_ex :
  match load "square_IC" (edit "all" "Ms" (YList [YInt 3]) (edit "all" "N_spaces" (YList [YInt 4])
            (edit "square_IC" "N_angles" (YList [YInt 2]) yaml_transport)))
          (edit_top "eval_array" (YList [YFloat 1 (-1); YFloat 25 (-2)]) (edit_top "eval_times" (YBool true) yaml_mesh_parameters)) with
  | Ok c => c_saving c = 1%Z /\ c_eval_times c = 1%Z /\ c_N_runs c = 1%Z /\
            map num (entries (c_eval_array c)) = [Ok (dec2R (1, -1)%Z); Ok (dec2R (25, -2)%Z)] /\
            fst (main toy_print shaped_solve c true true (new_solver c empty_run_file 0)) = Ok tt
  | Err _ => False
  end.
Proof.
  destruct (load _ _ _) as [c|] eqn:E; [|vm_compute in E; discriminate].
  assert (U : exists b, Reqb (dec2R (c_epsilon c)) 1 = b) by eauto. destruct U as [b U].
  vm_compute in E. injection E as <-. cbn [c_epsilon] in U.
  split; [reflexivity|]. split; [reflexivity|]. split; [reflexivity|]. split; [reflexivity|].
  destruct b; lazy -[Reqb dec2R f32 Rplus Rdiv IZR]; rewrite !U; lazy -[Reqb dec2R f32 Rplus Rdiv IZR]; reflexivity.
Qed.
