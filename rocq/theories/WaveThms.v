(** The recorded wave fronts and the small helpers of the driver (C96-C98). *)
From Coq Require Import String Ascii.
From Verif Require Import Py PyLemmas ConfigModel ConfigData StoreModel StoreProofs StoreThms DriverModel ConfigThms DriverThms DiskThms.
Open Scope string_scope.
Open Scope R_scope.

(** * C96: fronts are written to one file and read from another *)

(** The same datasets. *)
Definition same_data (f f' : node) : Prop := forall p a, lookup p f' = Some (Dset a) <-> lookup p f = Some (Dset a).
(** The file [n] keeps its datasets; a missing file stays missing. *)
Definition data_kept (n : string) (d d' : disk) : Prop :=
  match d n with None => d' n = None | Some f => exists f', d' n = Some f' /\ same_data f f' end.

Lemma same_refl : forall f, same_data f f.
Proof. intros f p a. tauto. Qed.
Lemma same_trans : forall f g h, same_data f g -> same_data g h -> same_data f h.
Proof. intros f g h A B p a. rewrite (B p a). apply A. Qed.
Lemma kept_refl : forall n d, data_kept n d d.
Proof. intros n d. unfold data_kept. destruct (d n); [|reflexivity]. eauto using same_refl. Qed.
Lemma kept_trans : forall n d d1 d2, data_kept n d d1 -> data_kept n d1 d2 -> data_kept n d d2.
Proof.
  intros n d d1 d2 A B. unfold data_kept in *. destruct (d n) as [f|]; [|rewrite A in B; exact B].
  destruct A as (g & E & A). rewrite E in B. destruct B as (h & E' & B). exists h. split; [exact E'|eapply same_trans; eassumption].
Qed.
Lemma group_same : forall s f r f', change (put [s] (Group nil)) f = (r, f') -> same_data f f'.
Proof.
  intros s f r f' H. unfold change in H. destruct (put [s] (Group nil) f) as [g|] eqn:E; injection H as _ <-; [|apply same_refl].
  destruct (group_spec _ _ _ E) as (G1 & G2 & G3). intros p a.
  destruct p as [|t p].
  - cbn in E. cbn. destruct f as [l|]; [|discriminate]. destruct (assoc s l); [discriminate|]. injection E as <-. split; discriminate.
  - destruct (list_eq_dec string_dec (t :: p) [s]) as [->|N]; [rewrite G1, G2; split; discriminate|]. rewrite G3; [tauto|discriminate|exact N].
Qed.

(** Code on an open file that adds no dataset and removes none. *)
Definition reads {A} (m : h5 A) : Prop := forall f r f', m f = (r, f') -> same_data f f'.
Lemma reads_bind {A B} (m : h5 A) (k : A -> h5 B) : reads m -> (forall a, reads (k a)) -> reads (hbind m k).
Proof.
  intros Hm Hk f r f' H. unfold hbind in H. destruct (m f) as [[a|e] f1] eqn:E.
  - eapply same_trans; [eapply Hm; exact E|eapply Hk; exact H].
  - injection H as _ <-. eapply Hm. exact E.
Qed.
Lemma reads_const {A} (g : node -> result A) : reads (fun f => (g f, f)).
Proof. intros f r f' H. injection H as _ <-. apply same_refl. Qed.
Lemma reads_group : forall s, plain s -> reads (h_group nil s).
Proof. intros s P f r f' H. unfold h_group in H. rewrite (resolve_plain nil s P) in H. eapply group_same. exact H. Qed.
Lemma reads_branch : forall F k t, plain F -> reads (wave_branch F k t).
Proof.
  intros F k t P. unfold wave_branch. apply reads_bind; [apply reads_const|]. intros b.
  apply reads_bind; [destruct b; [apply (reads_const (fun _ => Ok tt))|apply reads_group; exact P]|]. intros _.
  apply reads_bind; [apply reads_const|]. intros g. apply reads_bind; [apply reads_const|]. intros b0.
  destruct b0; [apply (reads_const (fun f => read_wave f g k))|apply (reads_const (fun _ => Ok _))].
Qed.
Lemma reads_wave : forall pr ld t, tame pr -> reads (call_wavepoints pr ld t).
Proof.
  intros pr ld t T. pose proof (fun x => proj1 (T x)) as P. unfold call_wavepoints. cbv zeta.
  destruct (String.eqb_spec (load_folder pr ld) "su_olson_thick") as [->|_].
  { apply reads_bind; [apply reads_const|]. intros b.
    apply reads_bind; [destruct b; [apply (reads_const (fun _ => Ok tt))|apply reads_group; split; [lit|discriminate]]|]. intros _.
    apply reads_bind; [apply reads_const|]. intros g.
    match goal with |- reads (fun f => (@?h f, f)) => apply (reads_const h) end. }
  destruct (String.eqb (load_folder pr ld) "su_olson_thick_s2"); [apply reads_branch; split; [lit|discriminate]|].
  destruct (String.eqb (load_folder pr ld) "rad_transfer_constant_cv_thick").
  { apply reads_branch. split; [|discriminate]. rewrite !free_app. repeat split; auto; lit. }
  destruct (String.eqb (load_folder pr ld) "rad_transfer_constant_cv_thick_s2").
  { apply reads_branch. split; [|discriminate]. rewrite !free_app. repeat split; auto; lit. }
  apply reads_bind; [apply reads_const|]. intros g.
  match goal with |- reads (fun f => (@?h f, f)) => apply (reads_const h) end.
Qed.

(** Steps of the driver that spare the datasets of [n]. *)
Definition spares {A} (n : string) (m : act A) : Prop := forall s r s', m s = (r, s') -> data_kept n (m_disk s) (m_disk s').
Lemma spares_bind {A B} n (m : act A) (k : A -> act B) : spares n m -> (forall a, spares n (k a)) -> spares n (abind m k).
Proof.
  intros Hm Hk s r s' H. unfold abind in H. destruct (m s) as [[a|e] s1] eqn:E.
  - eapply kept_trans; [eapply Hm; exact E|eapply Hk; exact H].
  - injection H as _ <-. eapply Hm. exact E.
Qed.
Lemma spares_pure {A} n (x : result A) : spares n (pure x).
Proof. intros s r s' H. injection H as _ <-. apply kept_refl. Qed.
Lemma spares_ret {A} n (a : A) : spares n (aret a).
Proof. intros s r s' H. injection H as _ <-. apply kept_refl. Qed.
Lemma spares_each {A} n (f : nat -> A -> act unit) : (forall i a, spares n (f i a)) -> forall l i, spares n (for_each f i l).
Proof. intros H l. induction l as [|a l IH]; intros i; cbn [for_each]; [apply spares_ret|]. apply spares_bind; [apply H|]. intros _. apply IH. Qed.
Lemma spares_other {A} n n' (m : h5 A) : n' <> n -> spares n (on_disk (on_file n' m)).
Proof.
  intros N s r s' H. unfold on_disk, on_file in H. destruct (m_disk s n') as [f|].
  - destruct (m f) as [x f']. injection H as _ <-. cbn. unfold data_kept, set_file.
    destruct (String.eqb_spec n n'); [congruence|]. destruct (m_disk s n); eauto using same_refl.
  - injection H as _ <-. apply kept_refl.
Qed.
Lemma spares_reads {A} n (m : h5 A) : reads m -> spares n (on_disk (on_file n m)).
Proof.
  intros R s r s' H. unfold on_disk, on_file in H. destruct (m_disk s n) as [f|] eqn:E.
  - destruct (m f) as [x f'] eqn:M. injection H as _ <-. cbn. unfold data_kept, set_file. rewrite E, String.eqb_refl.
    exists f'. split; [reflexivity|]. eapply R. exact M.
  - injection H as _ <-. apply kept_refl.
Qed.
Lemma spares_same {A} n (m : act A) : (forall s r s', m s = (r, s') -> m_disk s' = m_disk s) -> spares n m.
Proof. intros H s r s' E. rewrite (H _ _ _ E). apply kept_refl. Qed.

Lemma spares_load : forall pr c, tame pr -> spares wave_load_file (load_wave pr c).
Proof.
  intros pr c T. unfold load_wave. apply spares_bind; [apply spares_pure|]. intros m1.
  destruct (m1 =? 1)%Z; [|apply spares_same; intros s r s' H; injection H as _ <-; reflexivity].
  apply spares_bind; [apply spares_pure|]. intros s2. cbv zeta.
  assert (F : forall name, spares wave_load_file (w <<- on_disk (on_file wave_load_file
                (call_wavepoints pr {| l_problem := c_problem c; l_source := name; l_rad_or_transfer := "transfer";
                                       l_c := c_ratio c; l_cv := dec2R (c_cv0 c) |} (dec2R (c_tfinal c)))) ;; set_wave (Some w))).
  { intros name. apply spares_bind; [apply spares_reads, reads_wave, T|]. intros w. apply spares_same. intros s r s' H. injection H as _ <-. reflexivity. }
  destruct (c_thick c && (s2 =? 1)%Z)%bool; [apply F|]. destruct (c_thick c); [|apply spares_ret].
  apply spares_bind; [apply spares_pure|]. intros s5. destruct (s5 =? 1)%Z; [apply F|apply spares_ret].
Qed.
Lemma spares_level : forall pr solve c sv u m k na, spares wave_load_file (level pr solve c sv u m k na).
Proof.
  intros pr solve c sv u m k na. unfold level.
  apply spares_bind; [apply spares_pure|]. intros NM. apply spares_bind; [apply spares_pure|]. intros x0.
  apply spares_bind; [apply spares_same; intros s r s' H; injection H as _ <-; reflexivity|]. intros w.
  apply spares_bind; [apply spares_same; intros s r s' H; injection H as _ <-; reflexivity|]. intros o.
  apply spares_bind; [apply spares_pure|]. intros width. apply spares_bind; [apply spares_pure|]. intros N.
  apply spares_bind; [apply spares_pure|]. intros n0.
  apply spares_bind.
  { unfold save_results, save_to_disk. destruct (c_saving c =? 1)%Z; [|apply spares_ret].
    destruct (c_eval_times c =? 0)%Z.
    - apply spares_bind; [apply spares_pure|]. intros r. apply spares_other. discriminate.
    - apply spares_each. intros i v. apply spares_bind; [apply spares_pure|]. intros t. apply spares_bind; [apply spares_pure|]. intros sv'.
      apply spares_bind; [apply spares_pure|]. intros r. apply spares_other. discriminate. }
  intros _. apply spares_bind.
  { apply spares_same. intros s r s' H. unfold add_time in H. destruct (getitem (m_r_times s) k); [|injection H as _ <-; reflexivity].
    destruct (setitem _ _ _); injection H as _ <-; reflexivity. }
  intros _. apply spares_bind.
  { destruct (k =? _)%nat; [|apply spares_ret]. apply spares_same. intros s r s' H. injection H as _ <-. reflexivity. }
  intros _. destruct (c_find_wave_loc c =? 1)%Z; [|apply spares_ret].
  apply spares_bind; [|intros sv'; apply spares_other; discriminate].
  destruct (_ && _)%bool; [|apply spares_ret]. destruct (rev _); [apply spares_ret|].
  apply spares_bind; [apply spares_pure|]. intros t. apply spares_pure.
Qed.
Lemma spares_main : forall pr solve c u m, tame pr -> spares wave_load_file (main pr solve c u m).
Proof.
  intros pr solve c u m T. unfold main. apply spares_bind; [apply spares_pure|]. intros sv.
  apply spares_bind; [destruct (c_benchmarking c =? 1)%Z; [apply spares_pure|apply spares_ret]|]. intros _.
  apply spares_bind; [apply spares_load, T|]. intros _.
  apply spares_each. intros _ _. apply spares_each. intros i a. apply spares_level.
Qed.

(** Whatever a run does and however it ends, the file wave fronts are read from has the datasets it had before. *)
Theorem C96_fronts_read_are_never_written : forall pr solve src par mesh u m All fields d calls r f s,
  tame pr -> run_problem pr solve src par mesh u m All fields d calls = (r, f, Some s) ->
  data_kept wave_load_file d (m_disk s).
Proof.
  intros pr solve src par mesh u m All fields d calls r f s T H. unfold run_problem in H.
  destruct (load src par mesh) as [c|e]; [|discriminate].
  change d with (m_disk (new_solver c d calls)). destruct All.
  - destruct (abind _ _ _) as [x st] eqn:E. injection H as _ _ <-.
    revert E. apply spares_bind; [apply spares_main, T|]. intros _. apply spares_bind; [apply spares_main, T|]. intros _.
    apply spares_bind; [apply spares_main, T|]. intros _. apply spares_main, T.
  - destruct (main pr solve c u m (new_solver c d calls)) as [x st] eqn:E. apply (spares_main pr solve c u m T) in E.
    destruct x; [|injection H as _ _ <-; exact E]. destruct (get_results c st); injection H as _ _ <-; exact E.
Qed.
Print Assumptions C96_fronts_read_are_never_written.

(** * Recording and reading on one file *)

Lemma wave_key_plain : forall pr s t q, tame pr -> In s source_names -> free "/" q -> plain (q ++ wave_key pr s t).
Proof.
  intros pr s t q T Hs Hq. unfold wave_key. split.
  - rewrite !free_app. split; [exact Hq|]. split; [cbn in Hs; repeat destruct Hs as [<-|Hs]; try contradiction; lit|]. split; [lit|apply T].
  - cbn in Hs. repeat destruct Hs as [<-|Hs]; try contradiction; destruct q; discriminate.
Qed.
Lemma wave_folder_plain : forall pr sv, tame pr -> plain (wave_folder pr sv).
Proof.
  intros pr sv T. pose proof (fun x => proj1 (T x)) as P. unfold wave_folder.
  repeat match goal with |- plain (if ?b then _ else _) => destruct b end;
  (split; [rewrite ?free_app; repeat split; auto; try lit|discriminate]).
Qed.
Ltac fapart := apply apart_tail; apply apart_head; discriminate.
Lemma wave_effect : forall pr sv w f f', tame pr -> In (s_source sv) source_names ->
  save_wave_loc pr sv w f = (Ok tt, f') ->
  let F := wave_folder pr sv in let k := wave_key pr (s_source sv) (s_tfinal sv) in
  lookup [F; "tpnts_" ++ k] f' = Some (Dset (A1 (w_t w))) /\ lookup [F; "left_" ++ k] f' = Some (Dset (A1 (w_left w))) /\
  lookup [F; "right_" ++ k] f' = Some (Dset (A1 (w_right w))) /\ lookup [F; "T_wave_" ++ k] f' = Some (Dset (A1 (w_T w))).
Proof.
  intros pr sv w f f' T Hs H F k. pose proof (wave_folder_plain pr sv T) as PF. fold F in PF.
  assert (P : forall q, free "/" q -> plain (q ++ k)) by (intros q Hq; apply wave_key_plain; assumption).
  unfold save_wave_loc in H. cbv zeta in H. fold F k in H.
  hinv H b0 f0 E0. unfold h_contains in E0. injection E0 as E0 <-. rewrite (resolve_plain _ _ PF) in E0. cbn [app] in E0.
  hinv H u1 f1 E1. hinv H g f2 E2. destruct (open_spec _ _ _ _ _ E2) as (-> & -> & l1 & G1). rewrite (resolve_plain _ _ PF) in *. cbn [app] in *.
  hinv H u3 f3 E3. hinv H u4 f4 E4. hinv H u5 f5 E5. hinv H u6 f6 E6. hinv H u7 f7 E7.
  hinv H u8 f8 E8. destruct (data_spec _ _ _ _ _ _ E8) as (-> & C8 & _).
  hinv H u9 f9 E9. destruct (data_spec _ _ _ _ _ _ E9) as (-> & C9 & R9).
  hinv H u10 f10 E10. destruct (data_spec _ _ _ _ _ _ E10) as (-> & C10 & R10).
  hinv H u11 f11 E11. destruct (data_spec _ _ _ _ _ _ E11) as (-> & C11 & R11). injection H as <-.
  rewrite (resolve_plain [F] _ (P "tpnts_" ltac:(lit))) in *. rewrite (resolve_plain [F] _ (P "left_" ltac:(lit))) in *.
  rewrite (resolve_plain [F] _ (P "right_" ltac:(lit))) in *. rewrite (resolve_plain [F] _ (P "T_wave_" ltac:(lit))) in *. cbn [app] in *.
  split; [rewrite R11, R10, R9 by fapart; exact C8|]. split; [rewrite R11, R10 by fapart; exact C9|].
  split; [rewrite R11 by fapart; exact C10|exact C11].
Qed.
Lemma read1_dset : forall f g n v, lookup (resolve g n) f = Some (Dset (A1 v)) -> read1 f g n = Ok v.
Proof. intros f g n v H. unfold read1, read. rewrite H. reflexivity. Qed.
Lemma wave_branch_hit : forall pr F k t w f, plain F -> (forall q, free "/" q -> plain (q ++ k)) -> tame pr ->
  lookup [F; "tpnts_" ++ k] f = Some (Dset (A1 (w_t w))) -> lookup [F; "left_" ++ k] f = Some (Dset (A1 (w_left w))) ->
  lookup [F; "right_" ++ k] f = Some (Dset (A1 (w_right w))) -> lookup [F; "T_wave_" ++ k] f = Some (Dset (A1 (w_T w))) ->
  wave_branch F k t f = (Ok w, f).
Proof.
  intros pr F k t w f PF P T H1 H2 H3 H4.
  assert (G : exists l, lookup [F] f = Some (Group l)).
  { cbn in *. destruct f as [l|]; [|discriminate]. destruct (assoc F l) as [[l'|]|]; try discriminate. eauto. }
  destruct G as [l G]. unfold wave_branch, hbind, h_contains, h_open, hret. rewrite (resolve_plain nil F PF). cbn [app]. rewrite G. cbv iota beta.
  rewrite G. cbv iota beta. rewrite (resolve_plain [F] _ (P "tpnts_" ltac:(lit))). cbn [app]. rewrite H1. cbv iota. unfold read_wave.
  rewrite (read1_dset _ _ _ (w_t w)) by (rewrite (resolve_plain [F] _ (P "tpnts_" ltac:(lit))); exact H1).
  rewrite (read1_dset _ _ _ (w_left w)) by (rewrite (resolve_plain [F] _ (P "left_" ltac:(lit))); exact H2).
  rewrite (read1_dset _ _ _ (w_right w)) by (rewrite (resolve_plain [F] _ (P "right_" ltac:(lit))); exact H3).
  rewrite (read1_dset _ _ _ (w_T w)) by (rewrite (resolve_plain [F] _ (P "T_wave_" ltac:(lit))); exact H4).
  destruct w. reflexivity.
Qed.

(** On one file the round trip of a front works for two of the problem kinds. *)
Theorem C96_front_round_trip : forall pr sv w f f' ld, tame pr -> In (s_source sv) source_names ->
  s_problem sv = "su_olson_thick_s2" \/ s_problem sv = "rad_transfer_constant_cv_thick" ->
  save_wave_loc pr sv w f = (Ok tt, f') ->
  l_problem ld = s_problem sv -> l_source ld = s_source sv -> l_cv ld = s_cv sv ->
  call_wavepoints pr ld (s_tfinal sv) f' = (Ok w, f').
Proof.
  intros pr sv w f f' ld T Hs Hp H E1 E2 E3. destruct (wave_effect pr sv w f f' T Hs H) as (A & B & C & D).
  pose proof (wave_folder_plain pr sv T) as PF.
  assert (X : call_wavepoints pr ld (s_tfinal sv) = wave_branch (wave_folder pr sv) (wave_key pr (s_source sv) (s_tfinal sv)) (s_tfinal sv)).
  { unfold call_wavepoints, load_folder, wave_folder. rewrite E1, E2, E3. destruct Hp as [-> | ->]; reflexivity. }
  rewrite X. apply (wave_branch_hit pr); try assumption. intros q Hq. apply wave_key_plain; assumption.
Qed.
Print Assumptions C96_front_round_trip.

(** Not for the third: the record of 'rad_transfer_constant_cv_thick_s2' is filed under 'none', where the reader does not look. *)
Theorem C96_third_kind_is_misfiled_refuted : exists pr sv w f' ld, tame pr /\ In (s_source sv) source_names /\
  s_problem sv = "rad_transfer_constant_cv_thick_s2" /\ save_wave_loc pr sv w (Group nil) = (Ok tt, f') /\
  l_problem ld = s_problem sv /\ l_source ld = s_source sv /\ l_cv ld = s_cv sv /\
  exists w' f2, call_wavepoints pr ld (s_tfinal sv) f' = (Ok w', f2) /\ w_t w' <> w_t w.
Proof.
  pose (sv := {| s_problem := "rad_transfer_constant_cv_thick_s2"; s_source := "square_s"; s_tfinal := 1; s_moving := true; s_uncollided := true;
                 s_c := 1; s_cv := 1; s_epsilon := 1 |}).
  pose (w := {| w_t := [1; 2]; w_left := [0; 0]; w_right := [0; 0]; w_T := [0; 0] |}).
  exists toy_print, sv, w. eexists.
  exists {| l_problem := "rad_transfer_constant_cv_thick_s2"; l_source := "square_s"; l_rad_or_transfer := "transfer"; l_c := 1; l_cv := 1 |}.
  split; [intros x; split; lit|]. split; [cbn; auto|]. split; [reflexivity|]. split; [vm_compute; reflexivity|].
  split; [reflexivity|]. split; [reflexivity|]. split; [reflexivity|]. eexists _, _. split; [vm_compute; reflexivity|]. cbn. discriminate.
Qed.
Print Assumptions C96_third_kind_is_misfiled_refuted.

(** * C97: when a recorded front can be used *)

Definition front_kinds : list string := ["su_olson_thick_s2"; "rad_transfer_constant_cv_thick"; "rad_transfer_constant_cv_thick_s2"].

(** Reading a front ends normally only for three problem kinds; for them on any file with a usable folder. *)
Lemma front_kinds_only : forall pr ld t f w f', call_wavepoints pr ld t f = (Ok w, f') -> In (l_problem ld) front_kinds.
Proof.
  intros pr ld t f w f' H. unfold call_wavepoints in H. cbv zeta in H.
  assert (Three : forall g f0, ~ exists x f1, (fun f : node => (_ <- read1 f g ("tpnts_" ++ wave_key pr (l_source ld) t) ;;
              _ <- read1 f g ("left_" ++ wave_key pr (l_source ld) t) ;;
              _ <- read1 f g ("right_" ++ wave_key pr (l_source ld) t) ;;
              Err UnboundLocal : result wave, f)) f0 = (Ok x, f1)).
  { intros g f0 (x & f1 & Q). cbv beta in Q. destruct (read1 f0 g ("tpnts_" ++ _)); [|discriminate]. cbn [bind] in Q.
    destruct (read1 f0 g ("left_" ++ _)); [|discriminate]. cbn [bind] in Q. destruct (read1 f0 g ("right_" ++ _)); discriminate. }
  assert (Lf : In (load_folder pr ld) front_kinds -> In (l_problem ld) front_kinds).
  { unfold load_folder. cbv zeta. destruct (String.eqb (l_problem ld) "rad_transfer_const_cv_thick").
    - intros [Q|[Q|[Q|[]]]]; discriminate Q.
    - destruct (String.eqb (l_problem ld) "rad_transfer_const_cv"); [|auto]. intros [Q|[Q|[Q|[]]]]; discriminate Q. }
  apply Lf. cbn.
  destruct (String.eqb_spec (load_folder pr ld) "su_olson_thick") as [E|_].
  { exfalso. hinv H b f1 E1. hinv H b0 f2 E2. hinv H g f3 E3. eapply Three. eexists _, _. exact H. }
  destruct (String.eqb_spec (load_folder pr ld) "su_olson_thick_s2") as [E|_]; [auto|].
  destruct (String.eqb_spec (load_folder pr ld) "rad_transfer_constant_cv_thick") as [E|_]; [auto|].
  destruct (String.eqb_spec (load_folder pr ld) "rad_transfer_constant_cv_thick_s2") as [E|_]; [auto|].
  exfalso. hinv H g f3 E3. eapply Three. eexists _, _. exact H.
Qed.

(** The entry of the move type that asks for a recorded front. *)
Definition asks_for_front (c : config) : Prop := (v <- item_of (c_move_type c) 1 ;; int_of v) = Ok 1%Z.

Lemma load_wave_cases : forall pr c s s', asks_for_front c -> load_wave pr c s = (Ok tt, s') ->
  (m_wave s' = m_wave s /\ m_disk s' = m_disk s) \/
  exists name w f f', c_thick c = true /\ In (c_problem c) front_kinds /\
    (nth_error (c_source_type c) 2 = Some 1%Z /\ name = "square_s" \/
     nth_error (c_source_type c) 2 <> Some 1%Z /\ nth_error (c_source_type c) 5 = Some 1%Z /\ name = "gaussian_s") /\
    m_disk s wave_load_file = Some f /\ m_wave s' = Some (Some w) /\
    call_wavepoints pr {| l_problem := c_problem c; l_source := name; l_rad_or_transfer := "transfer"; l_c := c_ratio c; l_cv := dec2R (c_cv0 c) |}
      (dec2R (c_tfinal c)) f = (Ok w, f').
Proof.
  intros pr c s s' A H. unfold load_wave in H. unfold asks_for_front in A. ast H m1 s1 E1. injection E1 as E1 <-.
  assert (m1 = 1%Z) as -> by congruence. cbn [Z.eqb Pos.eqb] in H. cbv zeta in H. ast H s2 s1 E2. injection E2 as E2 <-.
  unfold getitem in E2. destruct (nth_error (c_source_type c) 2) as [z|] eqn:N2; [|discriminate]. injection E2 as ->.
  assert (F : forall name s0, (w <<- on_disk (on_file wave_load_file
                (call_wavepoints pr {| l_problem := c_problem c; l_source := name; l_rad_or_transfer := "transfer";
                                       l_c := c_ratio c; l_cv := dec2R (c_cv0 c) |} (dec2R (c_tfinal c)))) ;; set_wave (Some w)) s0 = (Ok tt, s') ->
     In (c_problem c) front_kinds /\ exists w f f', m_disk s0 wave_load_file = Some f /\ m_wave s' = Some (Some w) /\
       call_wavepoints pr {| l_problem := c_problem c; l_source := name; l_rad_or_transfer := "transfer"; l_c := c_ratio c; l_cv := dec2R (c_cv0 c) |}
         (dec2R (c_tfinal c)) f = (Ok w, f')).
  { intros name s0 Q. ast Q w sa Ea. injection Q as <-. unfold on_disk, on_file in Ea. destruct (m_disk s0 wave_load_file) as [f|]; [|discriminate].
    destruct (call_wavepoints _ _ _ f) as [x f'] eqn:C. injection Ea as -> <-. split; [exact (front_kinds_only _ _ _ _ _ _ C)|].
    exists w, f, f'. auto. }
  destruct (c_thick c) eqn:Th; cbn [andb] in H; [|left; injection H as <-; auto].
  destruct (Z.eqb_spec s2 1) as [->|N].
  - right. destruct (F _ _ H) as (K & w & f & f' & D & W & C). exists "square_s", w, f, f'. auto 9.
  - ast H s5 s1 E5. injection E5 as E5 <-. unfold getitem in E5. destruct (nth_error (c_source_type c) 5) as [z|] eqn:N5; [|discriminate]. injection E5 as ->.
    destruct (Z.eqb_spec s5 1) as [->|N']; [|left; injection H as <-; auto].
    right. destruct (F _ _ H) as (K & w & f & f' & D & W & C). exists "gaussian_s", w, f, f'.
    repeat (split; [assumption || reflexivity|]). split; [right; split; [congruence|auto]|auto].
Qed.

(** A run that asks for a recorded front and ends normally is an optically thick one of three problem kinds with a square or Gaussian source. *)
Theorem C97_fronts_need : forall pr solve c u m s s', asks_for_front c -> m_wave s = None -> (1 <= c_N_runs c)%Z -> c_N_angles c <> nil ->
  main pr solve c u m s = (Ok tt, s') ->
  c_thick c = true /\ In (c_problem c) front_kinds /\
  (nth_error (c_source_type c) 2 = Some 1%Z \/ nth_error (c_source_type c) 5 = Some 1%Z) /\ m_disk s wave_load_file <> None.
Proof.
  intros pr solve c u m s s' A Hw Hn HL H. unfold main in H. ast H sv s1 E1. injection E1 as E1 <-.
  ast H r2 s2 E2. assert (s2 = s) as -> by (destruct (c_benchmarking c =? 1)%Z; injection E2 as _ <-; reflexivity).
  ast H r3 s3 E3. destruct r3. destruct (load_wave_cases _ _ _ _ A E3) as [(W & _)|(name & w & f & f' & T & K & S & D & W & C)].
  - exfalso. rewrite Hw in W. replace (Z.to_nat (c_N_runs c)) with (S (Z.to_nat (c_N_runs c) - 1)) in H by lia. cbn [repeat for_each] in H.
    ast H r4 s4 E4. destruct (c_N_angles c) as [|na l]; [congruence|]. cbn [for_each] in E4. ast E4 r5 s5 E5.
    unfold level in E5. ast E5 r6 s6 E6. injection E6 as E6 <-. ast E5 r7 s7 E7. injection E7 as E7 <-. ast E5 r8 s8 E8.
    unfold get_wave in E8. rewrite W in E8. discriminate.
  - split; [exact T|]. split; [exact K|]. split; [destruct S as [[S _]|[_ [S _]]]; auto|congruence].
Qed.
Print Assumptions C97_fronts_need.

(** What an allowed run then uses: if the file holds no records, a single point at the final time with both
    fronts at the origin. *)
Theorem C97_default_front : forall pr c s s' f, tame pr -> asks_for_front c -> m_wave s = None -> load_wave pr c s = (Ok tt, s') -> m_wave s' <> None ->
  m_disk s wave_load_file = Some f -> (forall F n, lookup [F; n] f = None) ->
  m_wave s' = Some (Some {| w_t := [dec2R (c_tfinal c)]; w_left := [0]; w_right := [0]; w_T := [0] |}).
Proof.
  intros pr c s s' f T A Hw H Hn Hf Hl. pose proof (fun x => proj1 (T x)) as P.
  destruct (load_wave_cases _ _ _ _ A H) as [(W & _)|(name & w & f0 & f' & Th & K & S & D & W & C)]; [congruence|].
  assert (f0 = f) as -> by congruence. rewrite W. f_equal. f_equal.
  assert (PN : forall q, free "/" q -> plain (q ++ wave_key pr name (dec2R (c_tfinal c)))).
  { intros q Hq. apply wave_key_plain; [exact T| |exact Hq]. destruct S as [[_ ->]|[_ [_ ->]]]; cbn; auto 9. }
  assert (Br : forall F, plain F -> wave_branch F (wave_key pr name (dec2R (c_tfinal c))) (dec2R (c_tfinal c)) f = (Ok w, f') ->
    w = {| w_t := [dec2R (c_tfinal c)]; w_left := [0]; w_right := [0]; w_T := [0] |}).
  { intros F PF B. unfold wave_branch in B. hinv B b1 f1 E1. unfold h_contains in E1. injection E1 as E1 <-. hinv B u2 f2 E2. hinv B g f3 E3.
    destruct (open_spec _ _ _ _ _ E3) as (-> & -> & l & G). rewrite (resolve_plain nil F PF) in *. cbn [app] in *.
    hinv B b4 f4 E4. unfold h_contains in E4. rewrite (resolve_plain [F] _ (PN "tpnts_" ltac:(lit))) in E4. cbn [app] in E4.
    assert (Z : lookup [F; "tpnts_" ++ wave_key pr name (dec2R (c_tfinal c))] f2 = None).
    { rewrite <- (Hl F ("tpnts_" ++ wave_key pr name (dec2R (c_tfinal c)))). unfold h_group in E2. rewrite (resolve_plain nil F PF) in E2. cbn [app] in E2.
      apply (ensure_spec F _ _ _ _ (eq_sym E1) E2); [discriminate|discriminate]. }
    rewrite Z in E4. assert (b4 = false) as -> by congruence. injection B as <- _. reflexivity. }
  unfold call_wavepoints in C. cbv zeta in C. cbn [l_problem l_source l_cv load_folder] in C.
  cbn in K. destruct K as [K|[K|[K|[]]]]; unfold load_folder in C; cbn [l_problem l_cv] in C; rewrite <- K in C; cbn [String.eqb Ascii.eqb Bool.eqb andb] in C.
  - apply (Br "su_olson_thick_s2"); [split; [lit|discriminate]|exact C].
  - eapply Br; [|exact C]. split; [|discriminate]. rewrite !free_app. repeat split; auto; lit.
  - eapply Br; [|exact C]. split; [|discriminate]. rewrite !free_app. repeat split; auto; lit.
Qed.
Print Assumptions C97_default_front.

(** One entry of one section added in front. *)
Definition add (sec k : string) (v : yval) (y : yval) : yval :=
  match y with
  | YDict secs => YDict (map (fun kv : string * yval => if String.eqb (fst kv) sec then
      (fst kv, match snd kv with YDict d => YDict ((k, v) :: d) | z => z end) else kv) secs)
  | z => z
  end.
(** The shipped square pulse turned into a square source that asks for a recorded front; then also optically thick and of a kind that can. *)
Definition front_run : yval :=
  add "square_IC" "move_type" (YList [YInt 0; YInt 1]) (add "square_IC" "source_type"
    (YList [YInt 0; YInt 0; YInt 1; YInt 0; YInt 0; YInt 0; YInt 0; YInt 0; YInt 0; YInt 0; YInt 0; YInt 0; YInt 0; YInt 0; YInt 0]) no_saving).
Definition good_front_run : yval :=
  add "square_IC" "l" (YFloat 1 0) (add "all" "thick" (YBool true) (add "all" "problem_name" (YStr "su_olson_thick_s2") front_run)).
Definition wave_disk : disk := fun n => if String.eqb n wave_load_file then Some (Group nil) else None.
Example C97_ex :
  match load "square_IC" good_front_run yaml_mesh_parameters with
  | Ok c => asks_for_front c /\ let '(r, s') := main toy_print toy_solve c true true (new_solver c wave_disk 0) in
            r = Ok tt /\ m_wave s' = Some (Some {| w_t := [dec2R (c_tfinal c)]; w_left := [0]; w_right := [0]; w_T := [0] |})
  | Err _ => False
  end.
Proof. vm_compute. auto. Qed.
Example C97_ex_not_thick :
  match load "square_IC" front_run yaml_mesh_parameters with
  | Ok c => asks_for_front c /\ fst (main toy_print toy_solve c true true (new_solver c wave_disk 0)) = Err AttributeError
  | Err _ => False
  end.
Proof. vm_compute. auto. Qed.
(** The records of a run that finds fronts go to the other file. *)
Example C96_ex :
  match load "square_IC" good_front_run (edit_top "find_wave_loc" (YBool true) yaml_mesh_parameters) with
  | Ok c => let d := fun n => if String.eqb n wave_save_file then Some (Group nil) else wave_disk n in
            let '(r, s') := main toy_print toy_solve c true true (new_solver c d 0) in
            r = Ok tt /\ m_disk s' wave_load_file = Some (Group [("su_olson_thick_s2", Group nil)]) /\
            match m_disk s' wave_save_file with Some f => lookup ["su_olson_thick_s2"; "tpnts_square_st = x"] f = Some (Dset (A1 nil)) | None => False end
  | Err _ => False
  end.
Proof. vm_compute. auto. Qed.

(** * C98: the small helpers of the driver *)

(** The width of a level: its own for Gaussian pulses and manufactured solutions (source 4 exactly one), the first otherwise; an error exactly when that
    entry is missing or the source vector is too short. *)
Theorem C98_width_of_a_level : forall (x0 : list yval) st count s3 s4, nth_error st 3 = Some s3 -> nth_error st 4 = Some s4 ->
  x0_function x0 st count = getitem x0 (if (negb (s3 =? 0) || (s4 =? 1))%Z then count else 0%nat).
Proof.
  intros x0 st count s3 s4 H3 H4. unfold x0_function, getitem. rewrite H3, H4. cbn [bind].
  destruct (s3 =? 0)%Z; cbn [negb bind orb]; [|reflexivity]. destruct (s4 =? 1)%Z; reflexivity.
Qed.
Print Assumptions C98_width_of_a_level.
Example C98_ex_width : x0_function [YInt 5; YInt 6] [0; 0; 0; 1; 0]%Z 1 = Ok (YInt 6) /\ x0_function [YInt 5; YInt 6] [0; 1; 0; 0; 0]%Z 1 = Ok (YInt 5).
Proof. split; reflexivity. Qed.

(** Time steps: one fewer than times; they are the differences and add up to the elapsed time; positive for increasing times. *)
Theorem C98_time_steps : forall ts dts, time_step_function ts = Ok dts ->
  S (length dts) = length ts /\
  (forall i, (i < length dts)%nat -> nth i dts 0 = nth (S i) ts 0 - nth i ts 0) /\
  fold_right Rplus 0 dts = last ts 0 - hd 0 ts /\
  ((forall i, (S i < length ts)%nat -> nth i ts 0 < nth (S i) ts 0) -> forall d, In d dts -> 0 < d).
Proof.
  intros ts dts H. unfold time_step_function in H. destruct ts as [|t ts]; [discriminate|]. injection H as <-.
  split; [rewrite map_length, seq_length; cbn [length]; lia|]. split; [|split].
  - intros i Hi. rewrite map_length, seq_length in Hi. rewrite (nth_indep _ 0 (nth (S 0) (t :: ts) 0 - nth 0 (t :: ts) 0)) by (rewrite map_length, seq_length; exact Hi).
    rewrite (map_nth (fun i => nth (S i) (t :: ts) 0 - nth i (t :: ts) 0)). rewrite seq_nth by exact Hi. reflexivity.
  - assert (K : forall ts t, fold_right Rplus 0 (map (fun i => nth (S i) (t :: ts) 0 - nth i (t :: ts) 0) (seq 0 (length ts))) = last (t :: ts) 0 - t).
    { clear. induction ts as [|t1 ts IH]; intros t; [cbn; ring|]. change (seq 0 (length (t1 :: ts))) with (0%nat :: seq 1 (length ts)).
      rewrite <- seq_shift. cbn [map fold_right]. rewrite map_map. specialize (IH t1).
      change (last (t :: t1 :: ts) 0) with (last (t1 :: ts) 0).
      transitivity ((t1 - t) + (last (t1 :: ts) 0 - t1)); [|ring]. f_equal. exact IH. }
    rewrite Nat.sub_0_r. exact (K ts t).
  - intros Hi d Hd. apply in_map_iff in Hd as (i & <- & Hs). apply in_seq in Hs. cbn [length] in Hs. specialize (Hi i). cbn [length] in Hi.
    assert (nth i (t :: ts) 0 < nth (S i) (t :: ts) 0) by (apply Hi; lia). cbn [nth] in *. lra.
Qed.
Print Assumptions C98_time_steps.
Theorem C98_no_times : forall ts, time_step_function ts = Err ValueError <-> ts = nil.
Proof. intros [|t ts]; split; intros H; try discriminate; reflexivity. Qed.
Print Assumptions C98_no_times.
Example C98_ex_steps : exists dts, time_step_function [0; 1; 3] = Ok dts /\ dts = [1; 2].
Proof. eexists. split; [reflexivity|]. cbn. f_equal; [ring|]. f_equal. ring. Qed.

(** The one-hot benchmark vectors: the pair for the thin and thick Gaussian and square source; nothing else is accepted. *)
Theorem C98_benchmark_sources : forall sigma x0 st r, s2_source_type_selector sigma x0 st = Ok r <->
  exists i, r = (onehot16 i, onehot16 (S i)) /\ (6 <= length st)%nat /\
    ((nth 5 st 0%Z = 1%Z /\ (sigma = 300 /\ i = 12%nat \/ sigma = 1 / 2 /\ i = 10%nat)) \/
     (nth 5 st 0%Z <> 1%Z /\ nth 2 st 0%Z = 1%Z /\ (x0 = 400 /\ i = 14%nat \/ x0 = 1 / 2 /\ i = 8%nat))).
Proof.
  intros sigma x0 st r. unfold s2_source_type_selector, getitem. split.
  - destruct (nth_error st 5) as [s5|] eqn:E5; [|discriminate]. cbn [bind].
    assert (L : (6 <= length st)%nat) by (assert (5 < length st)%nat by (apply nth_error_Some; congruence); lia).
    rewrite (nth_error_nth st 5 0%Z E5). destruct (Z.eqb_spec s5 1) as [->|N5].
    + destruct (Reqb_spec sigma 300) as [->|N]; [intros H; injection H as <-; exists 12%nat; auto 9|].
      destruct (Reqb_spec sigma (1 / 2)) as [->|N']; [intros H; injection H as <-; exists 10%nat; auto 9|discriminate].
    + destruct (nth_error st 2) as [s2|] eqn:E2; [|discriminate]. cbn [bind]. rewrite (nth_error_nth st 2 0%Z E2).
      destruct (Z.eqb_spec s2 1) as [->|N2]; [|discriminate].
      destruct (Reqb_spec x0 400) as [->|N]; [intros H; injection H as <-; exists 14%nat; auto 9|].
      destruct (Reqb_spec x0 (1 / 2)) as [->|N']; [intros H; injection H as <-; exists 8%nat; auto 9|discriminate].
  - intros (i & -> & L & H).
    destruct (nth_error st 5) as [s5|] eqn:E5; [|apply nth_error_None in E5; lia]. cbn [bind]. rewrite (nth_error_nth st 5 0%Z E5) in H.
    destruct H as [[-> [[-> ->]|[-> ->]]]|[N5 [H2 H]]].
    + cbn [Z.eqb Pos.eqb]. rewrite Reqb_refl. reflexivity.
    + cbn [Z.eqb Pos.eqb]. rewrite Reqb_false by lra. rewrite Reqb_refl. reflexivity.
    + destruct (Z.eqb_spec s5 1); [contradiction|]. destruct (nth_error st 2) as [s2|] eqn:E2; [|apply nth_error_None in E2; lia]. cbn [bind].
      rewrite (nth_error_nth st 2 0%Z E2) in H2. subst s2. cbn [Z.eqb Pos.eqb].
      destruct H as [[-> ->]|[-> ->]]; [rewrite Reqb_refl; reflexivity|]. rewrite Reqb_false by lra. rewrite Reqb_refl. reflexivity.
Qed.
Print Assumptions C98_benchmark_sources.
(** The vectors are one-hot of length 16, the shipped source vectors have length 15. *)
Theorem C98_benchmark_vectors : forall i, length (onehot16 i) = 16%nat /\ forall j, (j < 16)%nat -> nth j (onehot16 i) 0%Z = if (j =? i)%nat then 1%Z else 0%Z.
Proof.
  intros i. split; [reflexivity|]. intros j Hj. unfold onehot16.
  rewrite (nth_indep _ 0%Z (if (0 =? i)%nat then 1%Z else 0%Z)) by (rewrite map_length, seq_length; exact Hj).
  rewrite (map_nth (fun j => if (j =? i)%nat then 1%Z else 0%Z)). rewrite seq_nth by exact Hj. reflexivity.
Qed.
Print Assumptions C98_benchmark_vectors.
