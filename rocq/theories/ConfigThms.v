(** Theorems about reading the configuration (C62-C64, C92). *)
From Coq Require Import String.
From Verif Require Import Py PyLemmas ConfigModel ConfigData StoreModel DriverModel.
Open Scope string_scope.
Open Scope R_scope.

(** * C62: exclusive groups *)

Lemma dict_loop_spec : forall d out n res,
  dict_loop d out n = Ok res ->
  exists zs, Forall2 (fun kv kz => fst kz = fst kv /\ int64 (snd kv) = Ok (snd kz)) d zs /\
    fst res = (out ++ zs)%list /\ snd res = (n + length (filter (fun kv => eq_True (snd kv)) d))%nat.
Proof.
  induction d as [|[k v] d IH]; intros out n res H; cbn [dict_loop] in H.
  - injection H as <-. exists nil. cbn. rewrite app_nil_r. repeat split; [constructor|lia].
  - destruct (int64 v) as [z|] eqn:E; [|discriminate]. cbn [bind] in H.
    destruct (IH _ _ _ H) as (zs & F & A & B). exists ((k, z) :: zs). split; [|split].
    + constructor; [split; [reflexivity|exact E]|exact F].
    + rewrite A, <- app_assoc. reflexivity.
    + rewrite B. cbn [filter snd]. destruct (eq_True v); cbn [length]; lia.
Qed.

(** The values of an option group that count as selected in the loaded dictionary are the ones equal to one. *)
Lemma selected_one : forall v z, int64 v = Ok z -> (eq_True v = true <-> z = 1%Z).
Proof.
  intros [b|z0| | | |] z; cbn; try discriminate; intros E; injection E as <-.
  - destruct b; split; (reflexivity || discriminate).
  - apply Z.eqb_eq.
Qed.

Lemma filter_forall2 : forall (d : list (string * yval)) (zs : list (string * Z)),
  Forall2 (fun kv kz => fst kz = fst kv /\ int64 (snd kv) = Ok (snd kz)) d zs ->
  length (filter (fun kv => eq_True (snd kv)) d) = length (filter (fun kz => (snd kz =? 1)%Z) zs).
Proof.
  induction 1 as [|kv kz d zs [_ E] F IH]; [reflexivity|]. cbn [filter].
  pose proof (selected_one _ _ E) as S.
  destruct (eq_True (snd kv)) eqn:T.
  - rewrite (proj2 (Z.eqb_eq _ _) (proj1 S eq_refl)). cbn [length]. lia.
  - destruct (Z.eqb_spec (snd kz) 1) as [K|K]; [|exact IH].
    apply S in K. discriminate.
Qed.

(** Loading a group of truth values succeeds exactly when at most one of them is true, and then copies the group
    entry by entry with true as 1 and false as 0. *)
Theorem C62_at_most_one_option : forall d : list (string * bool),
  let v := YDict (map (fun kb : string * bool => (fst kb, YBool (snd kb))) d) in
  let copy := map (fun kb : string * bool => (fst kb, if snd kb then 1%Z else 0%Z)) d in
  ((count_occ Bool.bool_dec (map snd d) true <= 1)%nat <-> dictionary_loader v = Ok copy) /\
  ((count_occ Bool.bool_dec (map snd d) true > 1)%nat <-> dictionary_loader v = Err AssertionError).
Proof.
  intros d v copy.
  assert (L : forall d out n,
    dict_loop (map (fun kb : string * bool => (fst kb, YBool (snd kb))) d) out n =
    Ok ((out ++ map (fun kb : string * bool => (fst kb, if snd kb then 1%Z else 0%Z)) d)%list,
        (n + count_occ Bool.bool_dec (map snd d) true)%nat)).
  { clear. induction d as [|[k b] d IH]; intros out n; cbn [map dict_loop fst snd int64 bind].
    - rewrite app_nil_r, Nat.add_0_r. reflexivity.
    - rewrite IH, <- app_assoc. cbn [app eq_True count_occ].
      destruct b; destruct (Bool.bool_dec _ _) as [e|e]; try congruence; f_equal; f_equal; lia. }
  unfold v, dictionary_loader. rewrite L. cbn [bind fst snd app]. fold copy.
  destruct (Nat.leb_spec 2 (0 + count_occ Bool.bool_dec (map snd d) true)); split; split; intros K;
    try discriminate; try reflexivity; lia.
Qed.
Print Assumptions C62_at_most_one_option.
Example C62_ex : dictionary_loader (YDict [("slab", YBool false); ("sphere", YBool true)]) =
  Ok [("slab", 0%Z); ("sphere", 1%Z)].
Proof. reflexivity. Qed.
Example C62_ex_two : dictionary_loader (YDict [("slab", YBool true); ("sphere", YBool true)]) = Err AssertionError.
Proof. reflexivity. Qed.

(** Whatever is loaded was a dictionary, the copy has its keys in order, and no two entries are 1. *)
Theorem C62_loaded_is_exclusive : forall v out,
  dictionary_loader v = Ok out ->
  (exists d, v = YDict d /\ map fst out = map fst d) /\
  forall i j a b, nth_error out i = Some (a, 1%Z) -> nth_error out j = Some (b, 1%Z) -> i = j.
Proof.
  intros v out H. destruct v as [| | | | |d]; try discriminate H. cbn [dictionary_loader] in H.
  destruct (dict_loop d nil 0) as [[o n]|] eqn:E; [|discriminate]. cbn [bind fst snd] in H.
  destruct (Nat.leb_spec 2 n) as [G|G]; [discriminate|]. injection H as <-.
  destruct (dict_loop_spec _ _ _ _ E) as (zs & F & A & B). cbn [fst snd app] in A, B. subst o.
  split.
  - exists d. split; [reflexivity|]. clear -F. induction F as [|x y ? ? [K _] F IH]; [reflexivity|].
    cbn. rewrite K, IH. reflexivity.
  - rewrite (filter_forall2 _ _ F) in B. cbn in B. assert (C : (length (filter (fun kz => (snd kz =? 1)%Z) zs) <= 1)%nat) by lia.
    clear -C. induction zs as [|[k z] zs IH]; intros i j a b Hi Hj.
    + destruct i; discriminate.
    + assert (No : forall l m c, (length (filter (fun kz : string * Z => (snd kz =? 1)%Z) l) <= 0)%nat ->
                   nth_error l m = Some (c, 1%Z) -> False).
      { clear. intros l m c Hl Hn. apply nth_error_In in Hn.
        assert (In (c, 1%Z) (filter (fun kz : string * Z => (snd kz =? 1)%Z) l)) by (apply filter_In; split; [exact Hn|reflexivity]).
        destruct (filter _ l); [contradiction|cbn in Hl; lia]. }
      cbn [filter snd] in C. destruct i, j; cbn [nth_error] in Hi, Hj.
      * reflexivity.
      * injection Hi as <- ->. cbn in C. exfalso. eapply No; [|exact Hj]. lia.
      * injection Hj as <- ->. cbn in C. exfalso. eapply No; [|exact Hi]. lia.
      * f_equal. eapply IH; [|exact Hi|exact Hj]. destruct (z =? 1)%Z; cbn in C; lia.
Qed.
Print Assumptions C62_loaded_is_exclusive.

(** * C63: refinement lists *)

Ltac step H := match type of H with
  | bind ?r ?f = Ok _ => let a := fresh "a" in let E := fresh "E" in
      destruct r as [a|] eqn:E; [cbn [bind] in H|discriminate H]
  end.

(** The facts about a loaded configuration used below, read off the loader once. *)
Lemma load_inv : forall src par mesh c, load src par mesh = Ok c ->
  length (c_N_spaces c) = length (c_N_angles c) /\ length (c_N_angles c) = length (c_Ms c) /\
  c_r_times c = repeat 0 (length (c_N_angles c)) /\
  dec2R (c_sigma_t c) <> 0 /\ c_ratio c = dec2R (c_sigma_s c) / dec2R (c_sigma_t c) /\
  (exists v, assoc "constant" (c_sigma_func c) = Some v) /\
  (exists v, dictionary_loader v = Ok (c_geometry c)) /\ (exists v, dictionary_loader v = Ok (c_thermal c)) /\
  (exists v, dictionary_loader v = Ok (c_sigma_func c)) /\ c_source_type c <> nil /\
  (src <> "gaussian_IC" -> src <> "gaussian_source" -> c_sigma c = (0%Z, 0%Z) /\ c_x0_or_sigma c = c_x0 c).
Proof.
  intros src par mesh c H. unfold load in H.
  repeat step H. injection H as <-. cbn.
  assert (A29 : exists l, a29 = Arr1 l /\ length l = a36) by (destruct a29; [discriminate|injection E36 as <-; eauto]).
  assert (A1' : exists l, a1 = Arr1 l /\ length l = a60) by (destruct a1; [discriminate|injection E60 as <-; eauto]).
  destruct A29 as (la & -> & La), A1' as (ln & -> & Ln).
  destruct (Nat.eqb_spec a60 a36) as [Q|Q]; [|discriminate E61].
  assert (A2' : exists l, a2 = Arr1 l /\ a36 = length l).
  { destruct a2; [discriminate|]. cbn [len_of bind] in E61. destruct (Nat.eqb_spec a36 (length l)); [eauto|discriminate]. }
  destruct A2' as (lm & -> & Lm).
  split; [lia|]. split; [lia|]. split; [rewrite La; reflexivity|]. split; [|split; [reflexivity|]].
  { destruct (Z.eqb_spec (fst a18) 0) as [Z0|Z0]; [discriminate|]. unfold dec2R.
    apply Rmult_integral_contrapositive. split; [intros K; apply Z0, eq_IZR; rewrite K; reflexivity|].
    apply powerRZ_NOR. lra. }
  split; [destruct (assoc "constant" a54); [eauto|discriminate]|].
  split; [step E23; eauto|]. split; [step E10; eauto|]. split; [step E54; eauto|].
  split; [intros ->; discriminate E32|].
  intros N1 N2. apply String.eqb_neq in N1, N2. rewrite N1, N2 in *. cbn in *. injection E37 as <-. split; reflexivity.
Qed.

(** Lists of different lengths are never accepted, whatever else the files say. *)
Theorem C63_mismatch_rejected : forall src par mesh all sec ns ms na,
  key par "all" = Ok all -> key par src = Ok sec ->
  key all "N_spaces" = Ok (YList ns) -> key all "Ms" = Ok (YList ms) -> key sec "N_angles" = Ok (YList na) ->
  ~ (length ns = length na /\ length na = length ms) ->
  forall c, load src par mesh <> Ok c.
Proof.
  intros src par mesh all sec ns ms na A S N M G D c H. unfold load in H. rewrite A, S in H. cbn [bind] in H.
  rewrite N, M, G in H. cbn [bind array_of] in H. repeat step H. apply D. cbn [len_of] in *.
  repeat match goal with E : Ok _ = Ok _ |- _ => injection E as E; subst end.
  destruct (Nat.eqb_spec (length ns) (length na)); [|discriminate].
  match goal with E : (n_Ms <- Ok (length ms) ;; _) = Ok _ |- _ => cbn [bind] in E end.
  destruct (Nat.eqb_spec (length na) (length ms)); [|discriminate]. split; assumption.
Qed.
Print Assumptions C63_mismatch_rejected.

(** In a loaded configuration every refinement level of a study in cells finds its cell count and order; a study
    in orders finds them exactly when there are at least two cell counts (or no level at all); any other study
    fails at its first level. *)
Theorem C63_levels_in_range : forall src par mesh c,
  load src par mesh = Ok c ->
  (c_major c = "cells" -> forall count, (count < length (c_N_angles c))%nat ->
     exists N M, nth_error (c_N_spaces c) count = Some N /\ nth_error (c_Ms c) count = Some M /\
       parameter_function (c_major c) (c_N_spaces c) (c_Ms c) count = Ok (N, M)) /\
  (c_major c = "Ms" ->
     ((forall count, (count < length (c_N_angles c))%nat ->
         exists N M, nth_error (c_N_spaces c) 1 = Some N /\ nth_error (c_Ms c) count = Some M /\
           parameter_function (c_major c) (c_N_spaces c) (c_Ms c) count = Ok (N, M))
      <-> length (c_N_spaces c) <> 1%nat)) /\
  (c_major c <> "cells" -> c_major c <> "Ms" -> forall count,
     parameter_function (c_major c) (c_N_spaces c) (c_Ms c) count = Err UnboundLocal).
Proof.
  intros src par mesh c H. destruct (load_inv _ _ _ _ H) as (L1 & L2 & _).
  assert (G : forall (l : list yval) i, (i < length l)%nat -> exists x, nth_error l i = Some x /\ getitem l i = Ok x).
  { intros l i Hi. destruct (nth_error l i) as [x|] eqn:E.
    - exists x. split; [reflexivity|]. unfold getitem. rewrite E. reflexivity.
    - apply nth_error_None in E. lia. }
  split; [|split].
  - intros -> count Hc. destruct (G (c_N_spaces c) count) as (N & EN & GN); [lia|].
    destruct (G (c_Ms c) count) as (M & EM & GM); [lia|]. exists N, M. split; [exact EN|]. split; [exact EM|].
    cbn. rewrite GM. cbn. rewrite GN. reflexivity.
  - intros ->. split.
    + intros K One. destruct (K 0%nat) as (N & M & EN & _); [lia|].
      assert (nth_error (c_N_spaces c) 1 = None) as E by (apply nth_error_None; lia). congruence.
    + intros Two count Hc. destruct (G (c_N_spaces c) 1%nat) as (N & EN & GN); [lia|].
      destruct (G (c_Ms c) count) as (M & EM & GM); [lia|]. exists N, M. split; [exact EN|]. split; [exact EM|].
      cbn. rewrite GN. cbn. rewrite GM. reflexivity.
  - intros N1 N2 count. unfold parameter_function. apply String.eqb_neq in N1, N2. rewrite N1, N2. reflexivity.
Qed.
Print Assumptions C63_levels_in_range.

(** * C64: the shipped files *)

Definition loads (src : string) (par : yval) : bool :=
  match load src par yaml_mesh_parameters with Ok _ => true | Err _ => false end.

Lemma table : forallb (fun fy : string * yval => forallb (fun src =>
    Bool.eqb (loads src (snd fy)) (String.eqb (fst fy) "transport" && String.eqb src "square_IC")) problems) shipped
  = true.
Proof. vm_compute. reflexivity. Qed.

(** Of all pairs of a shipped problem file and a problem, with the shipped mesh file, only the square pulse of
    transport.yaml loads. *)
Theorem C64_only_square_pulse_loads : forall file y src,
  In (file, y) shipped -> In src problems ->
  ((exists c, load src y yaml_mesh_parameters = Ok c) <-> (file = "transport" /\ src = "square_IC")).
Proof.
  intros file y src Hf Hs. pose proof (proj1 (forallb_forall _ _) table _ Hf) as T. cbn [fst snd] in T.
  pose proof (proj1 (forallb_forall _ _) T _ Hs) as K. cbn beta in K. apply Bool.eqb_prop in K.
  unfold loads in K. split.
  - intros [c E]. rewrite E in K. symmetry in K. apply andb_prop in K as [A B].
    apply String.eqb_eq in A, B. split; assumption.
  - intros [-> ->]. cbn [String.eqb] in K. destruct (load _ _ _); [eauto|discriminate K].
Qed.
Print Assumptions C64_only_square_pulse_loads.

Definition error_of (src : string) (par : yval) : option exn :=
  match load src par yaml_mesh_parameters with Ok _ => None | Err e => Some e end.
(** Why the others fail: every other file gives the material coupling as a number instead of an option group, and in
    transport.yaml two problems lack a strength and the rest have the wrong number of direction counts. *)
Theorem C64_why_the_others_fail :
  (forall file y src, In (file, y) shipped -> file <> "transport" -> In src problems ->
     load src y yaml_mesh_parameters = Err AttributeError) /\
  map (fun src => error_of src yaml_transport) problems =
  [Some AssertionError; None; Some AssertionError; Some AssertionError; Some KeyError; Some KeyError;
   Some AssertionError; Some AssertionError; Some AssertionError].
Proof.
  split; [|vm_compute; reflexivity].
  intros file y src Hf Nf Hs.
  assert (T : forallb (fun fy : string * yval => forallb (fun src =>
      String.eqb (fst fy) "transport" ||
      match error_of src (snd fy) with Some AttributeError => true | _ => false end)%bool problems) shipped = true)
    by (vm_compute; reflexivity).
  pose proof (proj1 (forallb_forall _ _) T _ Hf) as T1.
  pose proof (proj1 (forallb_forall _ _) T1 _ Hs) as K. cbn [fst snd] in K.
  apply String.eqb_neq in Nf. rewrite Nf in K. cbn [orb] in K. unfold error_of in K.
  destruct (load src y yaml_mesh_parameters) as [|e]; [discriminate|]. destruct e; (reflexivity || discriminate).
Qed.
Print Assumptions C64_why_the_others_fail.

(** * C92: what a loaded configuration guarantees *)

(** The scattering ratio is sigma_s / sigma_t with sigma_t not zero, each option group has at most one selected
    option, the opacity group knows 'constant', and outside the two Gaussian problems the width in use is x0. *)
Theorem C92_loaded_configuration : forall src par mesh c,
  load src par mesh = Ok c ->
  (dec2R (c_sigma_t c) <> 0 /\ c_ratio c = dec2R (c_sigma_s c) / dec2R (c_sigma_t c)) /\
  (forall g, In g [c_geometry c; c_thermal c; c_sigma_func c] ->
     forall i j a b, nth_error g i = Some (a, 1%Z) -> nth_error g j = Some (b, 1%Z) -> i = j) /\
  (exists v, In ("constant", v) (c_sigma_func c)) /\
  (src <> "gaussian_IC" -> src <> "gaussian_source" -> dec2R (c_sigma c) = 0 /\ c_x0_or_sigma c = c_x0 c).
Proof.
  intros src par mesh c H.
  destruct (load_inv _ _ _ _ H) as (_ & _ & _ & S & R & K & (g1 & G1) & (g2 & G2) & (g3 & G3) & _ & W).
  split; [split; assumption|]. split; [|split].
  - intros g [<-|[<-|[<-|[]]]]; eapply C62_loaded_is_exclusive; eassumption.
  - destruct K as [v K]. exists v. revert K. generalize (c_sigma_func c). induction l as [|[k z] l IH]; [discriminate|].
    cbn [assoc]. destruct (String.eqb_spec "constant" k) as [<-|]; intros Q; [injection Q as ->; left; reflexivity|].
    right. exact (IH Q).
  - intros N1 N2. destruct (W N1 N2) as [-> ->]. split; [|reflexivity]. unfold dec2R. cbn. lra.
Qed.
Print Assumptions C92_loaded_configuration.
(** The shipped square pulse: ratio one. *)
Example C92_ex : exists c, load "square_IC" yaml_transport yaml_mesh_parameters = Ok c /\ c_ratio c = 1.
Proof.
  eexists. split; [reflexivity|]. cbn [c_ratio]. unfold dec2R. cbn. change (Pos.to_nat 1) with 1%nat. cbn. lra.
Qed.

(** An entry of a section of a file. *)
Definition entry (file : yval) (sec k : string) (v : yval) : Prop :=
  exists d s, file = YDict d /\ assoc sec d = Some (YDict s) /\ assoc k s = Some v.
Lemma entry_key : forall file sec k s v, key file sec = Ok s -> key s k = Ok v -> entry file sec k v.
Proof.
  intros file sec k sc v H1 H2. destruct file as [| | | | |d]; try discriminate. cbn in H1. destruct (assoc sec d) as [x|] eqn:E; [|discriminate]. injection H1 as <-.
  destruct x as [| | | | |y]; try discriminate. cbn in H2. destruct (assoc k y) as [z|] eqn:E2; [|discriminate]. injection H2 as <-.
  exists d, y. auto.
Qed.
(** An entry of a file without sections. *)
Definition top (file : yval) (k : string) (v : yval) : Prop := exists d, file = YDict d /\ assoc k d = Some v.
Lemma top_key : forall file k v, key file k = Ok v -> top file k v.
Proof. intros file k v H. destruct file as [| | | | |d]; try discriminate. cbn in H. destruct (assoc k d) as [x|] eqn:E; [|discriminate]. injection H as <-. exists d. auto. Qed.

Ltac steps H := repeat match type of H with
  | bind ?r ?f = Ok _ => let a := fresh "a" in let E := fresh "E" in
      destruct r as [a|] eqn:E; [cbn [bind] in H|discriminate H]; try (steps E)
  end.
Ltac from_entry := eexists; split; [eapply entry_key; eassumption|]; first [eassumption|congruence].
Ltac from_top := eexists; split; [eapply top_key; eassumption|]; first [eassumption|congruence].

(** Every number of a loaded configuration is the entry of its own name: from the section 'all', from the section of the
    problem, or from the mesh file. *)
Theorem C92_numbers_come_from_their_entries : forall src par mesh c, load src par mesh = Ok c ->
  (forall k d, In (k, d) [("tfinal", c_tfinal c); ("rt", c_rt c); ("at", c_at c); ("t0", c_t0 c); ("e_initial", c_e_initial c);
       ("cv_const", c_cv0 c); ("sigma_t", c_sigma_t c); ("sigma_s", c_sigma_s c); ("epsilon", c_epsilon c); ("mxstp", c_mxstp c)] ->
     exists v, entry par "all" k v /\ float_of v = Ok d) /\
  (forall k z, In (k, z) [("N_runs", c_N_runs c); ("tnodes", c_t_nodes c); ("c_scaling", c_c_scaling c); ("save_solution", c_saving c)] ->
     exists v, entry par "all" k v /\ int_of v = Ok z) /\
  (forall k s, In (k, s) [("major", c_major c); ("weights", c_weights c); ("problem_name", c_problem c); ("integrator", c_integrator c)] ->
     exists v, entry par "all" k v /\ s = str_of v) /\
  (exists v, entry par src "source_strength" v /\ float_of v = Ok (c_strength c)) /\
  (exists v, entry par src "benchmarking" v /\ int_of v = Ok (c_benchmarking c)) /\
  (exists v, entry par src "move_type" v /\ c_move_type c = array_of v) /\
  (forall k d, In (k, d) [("find_edges_tol", c_find_edges_tol c); ("sqrt_t_move_factor", c_move_factor c); ("pad", c_pad c);
       ("leader_pad", c_leader_pad c); ("boundary_source_strength", c_boundary_strength c); ("fake_sedov_v0", c_v0 c)] ->
     exists v, top mesh k v /\ float_of v = Ok d) /\
  (forall k z, In (k, z) [("save_wave_loc", c_save_wave_loc c); ("find_wave_loc", c_find_wave_loc c);
       ("estimate_wavespeed", c_estimate_wavespeed c); ("choose_xs", c_choose_xs c); ("xs_quad", c_xs_quad c);
       ("eval_times", c_eval_times c); ("boundary_source", c_boundary_source c); ("Msigma", c_Msigma c); ("finite", c_finite c)] ->
     exists v, top mesh k v /\ int_of v = Ok z) /\
  (forall k a, In (k, a) [("xs_list", c_specified_xs c); ("eval_array", c_eval_array c); ("boundary_on", c_boundary_on c)] ->
     exists v, top mesh k v /\ a = array_of v).
Proof.
  intros src par mesh c H. unfold load in H. steps H. injection H as <-. cbn [c_tfinal c_rt c_at c_t0 c_e_initial c_cv0 c_sigma_t c_sigma_s c_epsilon c_mxstp
    c_N_runs c_t_nodes c_c_scaling c_saving c_major c_weights c_problem c_integrator c_strength c_benchmarking c_move_type
    c_find_edges_tol c_move_factor c_pad c_leader_pad c_boundary_strength c_v0 c_save_wave_loc c_find_wave_loc c_estimate_wavespeed c_choose_xs
    c_xs_quad c_eval_times c_boundary_source c_Msigma c_finite c_specified_xs c_eval_array c_boundary_on].
  repeat match goal with |- _ /\ _ => split end.
  all: try from_entry.
  all: intros k d K; cbn [In] in K; repeat (destruct K as [K|K]; [injection K as <- <-; first [from_entry|from_top]|]); contradiction.
Qed.
Print Assumptions C92_numbers_come_from_their_entries.

(** The two speeds: the words 'one' and 'sqrt_3' stand for 1 and for the positive number whose square is 1/3; any other text is kept. *)
Definition speed_means (s : string) (v : speed) : Prop :=
  (s = "one" -> v = Speed 1) /\
  (s = "sqrt_3" -> exists x, v = Speed x /\ 0 < x /\ x * x = 1 / 3) /\
  (s <> "one" -> s <> "sqrt_3" -> v = SpeedText s).
Lemma speed_of_means : forall s, speed_means s (speed_of s).
Proof.
  intros s. unfold speed_means, speed_of. split; [intros ->; reflexivity|split].
  - intros ->. cbn. exists (1 / sqrt 3). assert (P : 0 < sqrt 3) by (apply sqrt_lt_R0; lra). split; [reflexivity|].
    split; [apply Rdiv_lt_0_compat; lra|]. assert (Q : sqrt 3 * sqrt 3 = 3) by (apply sqrt_sqrt; lra).
    replace (1 / sqrt 3 * (1 / sqrt 3)) with (1 / (sqrt 3 * sqrt 3)) by (field; lra). rewrite Q. reflexivity.
  - intros N1 N2. apply String.eqb_neq in N1, N2. rewrite N1, N2. reflexivity.
Qed.
Theorem C92_speeds : forall src par mesh c, load src par mesh = Ok c ->
  (exists v, entry par "all" "particle_v" v /\ speed_means (str_of v) (c_particle_v c)) /\
  (exists v, entry par "all" "edge_v" v /\ speed_means (str_of v) (c_edge_v c)).
Proof.
  intros src par mesh c H. unfold load in H. steps H. injection H as <-. cbn [c_particle_v c_edge_v].
  split; (eexists; split; [eapply entry_key; eassumption|]);
    match goal with E : Ok (str_of ?v) = Ok ?s |- speed_means (str_of ?v) (speed_of ?s) => injection E as <-; apply speed_of_means end.
Qed.
Print Assumptions C92_speeds.

(** The width: the file's value as it is, except that for a plane pulse (source_type[0] not 0) the file must give a list and every
    entry is converted to a number. *)
Theorem C92_width : forall src par mesh c, load src par mesh = Ok c ->
  exists v, entry par src "x0" v /\
    (nth_error (c_source_type c) 0 = Some 0%Z -> c_x0 c = array_of v) /\
    (nth_error (c_source_type c) 0 <> Some 0%Z ->
       exists l ds, v = YList l /\ Forall2 (fun y d => float_of y = Ok d) l ds /\ c_x0 c = Arr1 (map (fun d : dec => YFloat (fst d) (snd d)) ds)).
Proof.
  intros src par mesh c H. unfold load in H. steps H. injection H as <-. cbn [c_source_type c_x0].
  match goal with E : load_x0 _ ?v = Ok _ |- _ => exists v; split; [eapply entry_key; eassumption|]; rename E into X end.
  match goal with E : getitem ?l 0 = Ok _ |- context [nth_error ?l 0] => unfold getitem in E; destruct (nth_error l 0) as [z|]; [injection E as ->|discriminate E] end.
  unfold load_x0 in X.
  match type of X with (if negb (?z =? 0)%Z then _ else _) = _ => destruct (Z.eqb_spec z 0) as [->|N] end; cbn [negb] in X.
  - injection X as <-. split; [reflexivity|congruence].
  - split; [congruence|]. intros _. cbv zeta in X. step X. injection X as <-.
    match goal with E : each _ (seq 0 (size_of (array_of ?v))) = Ok ?ds |- _ => rename E into Y; destruct v as [| | | |l|] end.
    all: try (cbn in Y; discriminate).
    exists l. eexists. split; [reflexivity|]. split; [|reflexivity]. cbn [array_of size_of] in Y.
    assert (G : forall pre l ds, each (fun i => y <- item_of (Arr1 (pre ++ l)) i ;; float_of y) (seq (length pre) (length l)) = Ok ds ->
      Forall2 (fun y d => float_of y = Ok d) l ds).
    { clear. intros pre l. revert pre. induction l as [|y l IH]; intros pre ds; cbn [length seq each].
      - intros H. injection H as <-. constructor.
      - cbn [item_of]. unfold getitem at 1. rewrite nth_error_app2 by lia. rewrite Nat.sub_diag. cbn [nth_error bind].
        destruct (float_of y) as [d|] eqn:E; [|discriminate]. cbn [bind]. intros H. step H. injection H as <-. constructor; [exact E|].
        apply (IH (pre ++ [y])%list). rewrite app_length. cbn [length]. rewrite Nat.add_1_r, <- app_assoc. exact E0. }
    exact (G nil l _ Y).
Qed.
Print Assumptions C92_width.
Example C92_ex_width : exists c, load "square_IC" yaml_transport yaml_mesh_parameters = Ok c /\ nth_error (c_source_type c) 0 = Some 0%Z.
Proof. eexists. split; reflexivity. Qed.
