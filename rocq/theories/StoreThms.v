(** Saving and loading results (C56-C58, C60, C61). *)
From Coq Require Import String Ascii.
From Verif Require Import Py PyLemmas ConfigModel StoreModel StoreProofs.
From Flocq Require Import Core.
Open Scope string_scope.
Open Scope R_scope.
#[local] Instance prec24 : Prec_gt_0 24 := eq_refl.

(** * C56: save then load *)

(** What a load returns of a saved solution: directions, weights, edges, angular flux and coefficients as they were,
    points and scalar flux rounded to single precision, the energy density likewise, and zeros instead of it for the
    problem 'transport'.  A loader made for 'transfer' gets all coefficients but the last row with 'rad' and the last row
    with 'mat'. *)
Definition returned (problem : string) (o : solution) (transfer : bool) (mat : string) (r : loaded) : Prop :=
  r_xs r = map f32 (o_xs o) /\ r_phi r = map f32 (o_phi o) /\
  r_e r = (if String.eqb problem "transport" then map (fun _ => 0) (o_xs o) else map f32 (o_e o)) /\
  r_psi r = A2 (o_psi o) /\ r_mus r = A1 (o_mus o) /\ r_ws r = A1 (o_ws o) /\ r_edges r = A1 (o_edges o) /\
  (transfer = false -> r_coeff r = Some (A3 (o_coeff o))) /\
  (transfer = true -> mat = "rad" -> r_coeff r = Some (A3 (removelast (o_coeff o)))) /\
  (transfer = true -> mat = "mat" -> r_coeff r = Some (A2 (List.last (o_coeff o) nil))).

(** After a save that ends normally, a load with the same source name, time, cell count, ratio, width, flags and epsilon
    from a folder of the same name succeeds and returns the saved data.  Any earlier content of the file is allowed. *)
Theorem C56_save_then_load : forall pr sv o w N s2 eps f f' ld M mat,
  tame pr -> In (s_source sv) source_names ->
  length (o_phi o) = length (o_xs o) -> (s_problem sv <> "transport" -> length (o_e o) = length (o_xs o)) ->
  o_coeff o <> nil ->
  save_solution pr sv o w N s2 eps f = (Ok tt, f') ->
  load_folder pr ld = save_folder pr sv -> l_source ld = s_source sv -> l_c ld = s_c sv ->
  exists r, call_sol pr ld (s_tfinal sv) M w N mat (s_uncollided sv) (s_moving sv) (s_epsilon sv) f' = Ok r /\
    returned (s_problem sv) o (String.eqb (l_rad_or_transfer ld) "transfer") mat r.
Proof.
  intros pr sv o w N s2 eps f f' ld M mat T Hs Lp Le Nc H EF ES EC.
  set (F := save_folder pr sv) in *.
  set (K := key_name pr (s_source sv) (s_uncollided sv) (s_moving sv) N (s_tfinal sv) (s_c sv) w (s_epsilon sv)).
  pose proof (folder_plain pr sv T) as PF. fold F in PF.
  assert (PK : plain K) by (apply key_plain; assumption).
  assert (FK : F <> K) by (apply folder_not_key; assumption).
  destruct (save_effect pr sv o w N s2 eps f f' F K T eq_refl eq_refl PF PK FK H)
    as ((phi & e & z & Rp & Re & Vs) & Vp & Vm & Vc & Vw & Ve & _).
  assert (GF : exists l, lookup [F] f' = Some (Group l)).
  { cbn in Ve. cbn. destruct f' as [l|]; [|discriminate]. destruct (assoc F l) as [[l'|]|]; try discriminate. eauto. }
  assert (GK : exists l, lookup [K] f' = Some (Group l)).
  { cbn in Vp. cbn. destruct f' as [l|]; [|discriminate]. destruct (assoc K l) as [[l'|]|]; try discriminate. eauto. }
  destruct GF as [lF GF], GK as [lK GK].
  unfold call_sol. cbv zeta. rewrite key_str_name, EF, ES, EC. fold K. fold F.
  unfold get_group. rewrite (resolve_plain _ _ PF). cbn [app]. rewrite GF. cbn [bind]. unfold read.
  change ("solution/" ++ "/" ++ K)%string with ("solution" ++ "/" ++ "/" ++ K)%string.
  change ("coefficients/" ++ "/" ++ K)%string with ("coefficients" ++ "/" ++ "/" ++ K)%string.
  change ("weights/" ++ "/" ++ K)%string with ("weights" ++ "/" ++ "/" ++ K)%string.
  change ("edges/" ++ "/" ++ K)%string with ("edges" ++ "/" ++ "/" ++ K)%string.
  rewrite !(resolve_kind [F] _ K) by (auto; apply kind_plain; cbn; auto). cbn [app].
  rewrite (resolve_abs _ _ PK), Vs, Vc, Vw, Ve, GK. cbn [bind read_row getitem nth_error].
  rewrite (resolve_plain [K] "psi"), (resolve_plain [K] "mus") by (split; [lit|discriminate]). cbn [app].
  rewrite Vp, Vm. cbn [bind two_axes three_axes].
  assert (Hphi : phi = map f32 (o_phi o)) by (destruct Rp as [[_ ->]|[Q _]]; [reflexivity|congruence]).
  assert (He : e = if String.eqb (s_problem sv) "transport" then map (fun _ => 0) (o_xs o) else map f32 (o_e o)).
  { assert (Q : String.eqb F "transport" = String.eqb (s_problem sv) "transport").
    { unfold F, save_folder. destruct (String.eqb (s_problem sv) "transport"); [reflexivity|].
      repeat match goal with |- String.eqb (if ?b then _ else _) _ = _ => destruct b end; reflexivity. }
    rewrite Q in Re. destruct (String.eqb_spec (s_problem sv) "transport") as [|Np]; [|specialize (Le Np)].
    - rewrite Re. clear. generalize (o_xs o). intros l. induction l as [|a l IH]; cbn; [reflexivity|]. rewrite IH. reflexivity.
    - destruct Re as [[_ ->]|[Q' _]]; [reflexivity|congruence]. }
  assert (Hl : forall v : list (list (list R)), v <> nil -> getneg v 1 = Ok (List.last v nil)).
  { intros v Nv. destruct (exists_last Nv) as (v0 & x & ->). rewrite last_last. unfold getneg, getitem. rewrite app_length. cbn [length].
    replace (length v0 + 1 - 1)%nat with (length v0) by lia.
    destruct (Nat.ltb_spec (length v0 + 1) 1); [lia|].
    rewrite nth_error_app2 by lia. rewrite Nat.sub_diag. reflexivity. }
  assert (Hd : forall v : list (list (list R)), drop_last v = removelast v).
  { reflexivity. }
  destruct (String.eqb_spec (l_rad_or_transfer ld) "transfer") as [Et|Et].
  - destruct (String.eqb_spec mat "rad") as [Er|Er]; [|destruct (String.eqb_spec mat "mat") as [Em|Em]].
    + cbn [bind]. eexists. split; [reflexivity|]. unfold returned; cbn. rewrite Hphi, He, Hd. repeat split; congruence || auto.
    + cbn [bind]. rewrite Hl by exact Nc. cbn [bind]. eexists. split; [reflexivity|]. unfold returned; cbn. rewrite Hphi, He. repeat split; congruence || auto.
    + cbn [bind]. eexists. split; [reflexivity|]. unfold returned; cbn. rewrite Hphi, He. repeat split; congruence || auto.
  - cbn [bind]. eexists. split; [reflexivity|]. unfold returned; cbn. rewrite Hphi, He. repeat split; congruence || auto.
Qed.
Print Assumptions C56_save_then_load.

(** Numbers that single precision holds: at most 24 bits and no bit below 2^-149. *)
Definition single (x : R) : Prop := exists m e : Z, x = IZR m * bpow radix2 e /\ (Z.abs m < 2 ^ 24)%Z /\ (-149 <= e)%Z.

(** Points and scalar flux come back exactly precisely when single precision holds every one of them. *)
Theorem C56_exact_iff_single : forall xs, map f32 xs = xs <-> Forall single xs.
Proof.
  assert (K : forall x, f32 x = x <-> single x).
  { intros x. split.
    - intros E. assert (G : generic_format radix2 (FLT_exp (-149) 24) x).
      { rewrite <- E. apply generic_format_round; [apply FLT_exp_valid; reflexivity|apply valid_rnd_N]. }
      destruct (FLT_format_generic radix2 (-149) 24 x G) as [[m e] E1 B1 B2]. exists m, e. cbn in B1, B2. split; [exact E1|]. split; assumption.
    - intros (m & e & E & B & C). apply round_generic; [apply valid_rnd_N|].
      apply generic_format_FLT. exists (Float radix2 m e); [exact E|exact B|exact C]. }
  induction xs as [|x xs IH]; cbn; split; intros H; auto.
  - injection H as H1 H2. constructor; [apply K; exact H1|apply IH; exact H2].
  - inversion H as [|? ? S1 S2]; subst. f_equal; [apply K; exact S1|apply IH; exact S2].
Qed.
Print Assumptions C56_exact_iff_single.
Example C56_ex_single : single 0.5.
Proof. exists 1%Z, (-1)%Z. split; [cbn; lra|]. split; [reflexivity|lia]. Qed.

Lemma tenth : ~ single (1 / 10).
Proof.
  intros (m & e & E & _ & Le).
  assert (Q : bpow radix2 149 * 1 = IZR (10 * m) * bpow radix2 (e + 149)).
  { rewrite bpow_plus, mult_IZR. replace 1 with (10 * (IZR m * bpow radix2 e)) by lra. ring. }
  rewrite Rmult_1_r in Q. rewrite <- !IZR_Zpower in Q by lia. rewrite <- mult_IZR in Q. apply eq_IZR in Q.
  assert (M : (Zpower radix2 149 mod 10 = 2)%Z) by (vm_compute; reflexivity).
  rewrite Q in M. rewrite <- Z.mul_assoc, Z.mul_comm, Z_mod_mult in M. discriminate.
Qed.

(** A small example used below. *)
Definition ex_print (x : R) : string := "x".
Definition ex_saver : saver :=
  {| s_problem := "transport"; s_source := "square_IC"; s_tfinal := 1; s_moving := true; s_uncollided := true;
     s_c := 1; s_cv := 0; s_epsilon := 1 |}.
Definition ex_solution (x : R) : solution :=
  {| o_xs := [x; 1]; o_phi := [x; x]; o_e := [x; 2]; o_coeff := [[[x]; [1]]; [[2]; [3]]]; o_edges := [0; 1];
     o_ws := [1]; o_psi := [[x; 5]]; o_mus := [x] |}.
Definition ex_loader (problem rad : string) : loader :=
  {| l_problem := problem; l_source := "square_IC"; l_rad_or_transfer := rad; l_c := 1; l_cv := 0 |}.
Lemma ex_tame : tame ex_print.
Proof. intros x. split; lit. Qed.
Example C56_ex : forall x, exists f',
  save_solution ex_print ex_saver (ex_solution x) (1/2) 4 false 1 (Group nil) = (Ok tt, f') /\
  load_folder ex_print (ex_loader "transport" "rad") = save_folder ex_print ex_saver.
Proof. intros x. eexists. split; [|reflexivity]. cbv -[f32 R0 R1 Reqb IZR Rdiv Rinv Rmult]. replace (Reqb 1 1) with true; [reflexivity|]. symmetry. destruct (Reqb_spec 1 1); [reflexivity|congruence]. Qed.

(** The full claim of an exact round trip fails: a point at 1/10 comes back as another number. *)
Theorem C56_exact_round_trip_refuted : exists pr sv o w N f f' ld M mat r,
  tame pr /\ save_solution pr sv o w N false 1 f = (Ok tt, f') /\
  load_folder pr ld = save_folder pr sv /\ l_source ld = s_source sv /\ l_c ld = s_c sv /\
  call_sol pr ld (s_tfinal sv) M w N mat (s_uncollided sv) (s_moving sv) (s_epsilon sv) f' = Ok r /\
  r_xs r <> o_xs o /\ r_psi r = A2 (o_psi o).
Proof.
  destruct (C56_ex (1 / 10)) as (f' & S & L).
  destruct (C56_save_then_load ex_print ex_saver (ex_solution (1 / 10)) (1/2) 4 false 1 (Group nil) f' (ex_loader "transport" "rad") 0 ""
             ex_tame) as (r & C & X & _ & _ & P & _); try reflexivity; try exact S; [cbn; auto|discriminate|].
  exists ex_print, ex_saver, (ex_solution (1 / 10)), (1/2), 4%nat, (Group nil), f', (ex_loader "transport" "rad"), 0%nat, "", r.
  split; [exact ex_tame|]. split; [exact S|]. split; [exact L|]. split; [reflexivity|]. split; [reflexivity|]. split; [exact C|].
  split; [|exact P]. rewrite X. intros E. apply (proj1 (C56_exact_iff_single _)) in E. inversion E as [|? ? S1 _]. exact (tenth S1).
Qed.
Print Assumptions C56_exact_round_trip_refuted.

(** Which problem names find their folder again: the loader maps the names 'rad_transfer_const_cv' and
    'rad_transfer_const_cv_thick' only, the saver 'rad_transfer_constant_cv' and three variants; under the saver's own
    names the loader looks for a folder that no save creates. *)
Theorem C56_folder_names : forall pr sv ld,
  l_cv ld = s_cv sv ->
  (In (s_problem sv) ["transport"; "su_olson"; "su_olson_s2"; "su_olson_thick"; "su_olson_thick_s2"] ->
     l_problem ld = s_problem sv -> load_folder pr ld = save_folder pr sv) /\
  (s_problem sv = "rad_transfer_constant_cv" -> l_problem ld = "rad_transfer_const_cv" -> load_folder pr ld = save_folder pr sv) /\
  (s_problem sv = "rad_transfer_constant_cv_thick" -> l_problem ld = "rad_transfer_const_cv_thick" -> load_folder pr ld = save_folder pr sv) /\
  (In (l_problem ld) ["rad_transfer_constant_cv"; "rad_transfer_constant_cv_s2"; "rad_transfer_constant_cv_thick";
                      "rad_transfer_constant_cv_thick_s2"] -> forall sv', load_folder pr ld <> save_folder pr sv').
Proof.
  intros pr sv ld Ecv. split; [|split; [|split]].
  - intros H E. unfold load_folder, save_folder. rewrite E. cbn in H.
    repeat destruct H as [<-|H]; try contradiction; reflexivity.
  - intros E1 E2. unfold load_folder, save_folder. rewrite E1, E2, Ecv. reflexivity.
  - intros E1 E2. unfold load_folder, save_folder. rewrite E1, E2, Ecv. reflexivity.
  - intros H sv'. unfold load_folder. cbn in H.
    repeat destruct H as [<-|H]; try contradiction; cbn; unfold save_folder;
    repeat match goal with |- context [if String.eqb (s_problem sv') ?x then _ else _] => destruct (String.eqb (s_problem sv') x) end; discriminate.
Qed.
Print Assumptions C56_folder_names.

(** * C57: what a save leaves alone *)

Definition load_key (pr : R -> string) (ld : loader) (t w : R) (N : nat) (u m : bool) (eps : R) : string :=
  key_name pr (l_source ld) u m N t (l_c ld) w eps.
Definition save_key (pr : R -> string) (sv : saver) (w : R) (N : nat) : string :=
  key_name pr (s_source sv) (s_uncollided sv) (s_moving sv) N (s_tfinal sv) (s_c sv) w (s_epsilon sv).

(** Whether a save ends normally or not, a load with another key gives afterwards what it gave before, from every
    folder. *)
Theorem C57_other_keys_untouched : forall pr sv o w N s2 eps f r f' ld t M w' N' mat u m e,
  tame pr -> In (s_source sv) source_names -> In (l_source ld) source_names -> plain (load_folder pr ld) ->
  save_solution pr sv o w N s2 eps f = (r, f') ->
  load_key pr ld t w' N' u m e <> save_key pr sv w N ->
  call_sol pr ld t M w' N' mat u m e f' = call_sol pr ld t M w' N' mat u m e f.
Proof.
  intros pr sv o w N s2 eps f r f' ld t M w' N' mat u m e T Hs Hl PF' H D.
  set (F := save_folder pr sv). set (K := save_key pr sv w N) in *.
  set (F' := load_folder pr ld) in *. set (K' := load_key pr ld t w' N' u m e) in *.
  pose proof (folder_plain pr sv T) as PF. fold F in PF.
  assert (PK : plain K) by (apply key_plain; assumption).
  assert (PK' : plain K') by (apply key_plain; assumption).
  assert (FK' : F <> K') by (apply folder_not_key; assumption).
  destruct (save_keeps pr sv o w N s2 eps F K eq_refl eq_refl PF PK f r f' H) as [A B].
  assert (L3 : forall k, In k kinds -> lookup [F'; k; K'] f' = lookup [F'; k; K'] f).
  { intros k Hk. apply A; try discriminate. intros p Hp.
    assert (forall s, s = F' \/ s <> F') as DS by (intros s; destruct (string_dec s F'); auto).
    cbn in Hk, Hp.
    repeat destruct Hk as [<-|Hk]; try contradiction; repeat destruct Hp as [<-|Hp]; try contradiction;
    first [ destruct (DS F) as [->|]; [|apply apart_head; assumption];
            apply apart_tail; first [apply apart_head; discriminate | apply apart_tail, apart_head; congruence]
          | destruct (DS K) as [->|]; [|apply apart_head; assumption];
            apply apart_tail; apply apart_head; discriminate]. }
  assert (LK : lookup [K'] f' = lookup [K'] f).
  { apply A; try congruence. intros p Hp. cbn in Hp. repeat destruct Hp as [<-|Hp]; try contradiction; apply apart_head; congruence. }
  assert (LP : forall k, lookup [K'; k] f' = lookup [K'; k] f).
  { intros k. apply A; try discriminate. intros p Hp. cbn in Hp. repeat destruct Hp as [<-|Hp]; try contradiction; apply apart_head; congruence. }
  unfold call_sol. cbv zeta. rewrite key_str_name. change (key_name pr (l_source ld) u m N' t (l_c ld) w' e) with K'. fold F'.
  unfold get_group. rewrite (resolve_plain _ _ PF'). cbn [app]. unfold read.
  change ("solution/" ++ "/" ++ K')%string with ("solution" ++ "/" ++ "/" ++ K')%string.
  change ("coefficients/" ++ "/" ++ K')%string with ("coefficients" ++ "/" ++ "/" ++ K')%string.
  change ("weights/" ++ "/" ++ K')%string with ("weights" ++ "/" ++ "/" ++ K')%string.
  change ("edges/" ++ "/" ++ K')%string with ("edges" ++ "/" ++ "/" ++ K')%string.
  assert (RK : forall k, In k kinds -> resolve [F'] (k ++ "/" ++ "/" ++ K') = [F'; k; K']).
  { intros k Hk. rewrite resolve_kind; [reflexivity|apply kind_plain; exact Hk|exact PK']. }
  specialize (B F'). destruct (lookup [F'] f) as [[l|a]|] eqn:E0.
  - destruct B as [l' ->]. cbn [bind].
    rewrite !(RK _) by (cbn; auto). rewrite !L3 by (cbn; auto). rewrite (resolve_abs _ _ PK'), LK.
    destruct (lookup [F'; "solution"; K'] f) as [[|a]|]; try reflexivity. cbn [bind].
    destruct (read_row a 0); [|reflexivity]. cbn [bind]. destruct (read_row a 1); [|reflexivity]. cbn [bind].
    destruct (read_row a 2); [|reflexivity]. cbn [bind]. destruct (lookup [K'] f) as [[|]|]; try reflexivity. cbn [bind].
    rewrite (resolve_plain [K'] "psi"), (resolve_plain [K'] "mus") by (split; [lit|discriminate]). cbn [app].
    rewrite !LP. reflexivity.
  - rewrite B. reflexivity.
  - cbn [bind]. assert (E3 : lookup [F'; "solution"; K'] f = None).
    { cbn in E0 |- *. destruct f as [l|]; [|reflexivity]. destruct (assoc F' l); [discriminate|reflexivity]. }
    unfold notD in B. destruct (lookup [F'] f') as [[l|a]|]; [|contradiction|reflexivity]. cbn [bind].
    rewrite !(RK _) by (cbn; auto). rewrite L3 by (cbn; auto). rewrite E3. reflexivity.
Qed.
Print Assumptions C57_other_keys_untouched.

(** One call of save_solution. *)
Record save_call := { a_sv : saver; a_o : solution; a_w : R; a_N : nat; a_s2 : bool; a_eps : R }.
Definition do_save (pr : R -> string) (a : save_call) : h5 unit :=
  save_solution pr (a_sv a) (a_o a) (a_w a) (a_N a) (a_s2 a) (a_eps a).
(** The file after a sequence of saves, each of which may fail. *)
Fixpoint after (pr : R -> string) (l : list save_call) (f : node) : node :=
  match l with nil => f | a :: l' => after pr l' (snd (do_save pr a f)) end.

(** After any sequence of saves on any file, a load returns the last save with its key, if that save ended normally and
    went to the folder read. *)
Theorem C57_last_save_wins : forall pr before a later f0 f1 ld M mat,
  tame pr -> In (s_source (a_sv a)) source_names -> Forall (fun b => In (s_source (a_sv b)) source_names) later ->
  length (o_phi (a_o a)) = length (o_xs (a_o a)) ->
  (s_problem (a_sv a) <> "transport" -> length (o_e (a_o a)) = length (o_xs (a_o a))) -> o_coeff (a_o a) <> nil ->
  do_save pr a (after pr before f0) = (Ok tt, f1) ->
  Forall (fun b => save_key pr (a_sv b) (a_w b) (a_N b) <> save_key pr (a_sv a) (a_w a) (a_N a)) later ->
  load_folder pr ld = save_folder pr (a_sv a) -> l_source ld = s_source (a_sv a) -> l_c ld = s_c (a_sv a) ->
  exists r, call_sol pr ld (s_tfinal (a_sv a)) M (a_w a) (a_N a) mat (s_uncollided (a_sv a)) (s_moving (a_sv a)) (s_epsilon (a_sv a))
              (after pr (before ++ a :: later) f0) = Ok r /\
    returned (s_problem (a_sv a)) (a_o a) (String.eqb (l_rad_or_transfer ld) "transfer") mat r.
Proof.
  intros pr before a later f0 f1 ld M mat T Hs Hl Lp Le Nc H1 Hk EF ES EC.
  assert (Q : after pr (before ++ a :: later) f0 = after pr later f1).
  { revert f0 H1. induction before as [|b l IH]; intros f0 H1; cbn in *; [rewrite H1; reflexivity|]. apply IH. exact H1. }
  rewrite Q. clear Q.
  destruct (C56_save_then_load pr (a_sv a) (a_o a) (a_w a) (a_N a) (a_s2 a) (a_eps a) _ f1 ld M mat T Hs Lp Le Nc H1 EF ES EC) as (r & C & V).
  exists r. split; [|exact V]. rewrite <- C. clear C H1. revert f1. induction later as [|b l IH]; intros f1; [reflexivity|].
  cbn [after]. inversion Hk as [|? ? K1 K2]; subst. inversion Hl as [|? ? L1 L2]; subst. rewrite (IH L2 K2).
  destruct (do_save pr b f1) as [rb fb] eqn:Eb. cbn [snd].
  apply (C57_other_keys_untouched pr (a_sv b) (a_o b) (a_w b) (a_N b) (a_s2 b) (a_eps b) f1 rb fb);
    [exact T|exact L1|rewrite ES; exact Hs|rewrite EF; apply folder_plain; exact T|exact Eb|].
  unfold load_key. rewrite ES, EC. intros E. apply K1. symmetry. exact E.
Qed.
Print Assumptions C57_last_save_wins.

(** * C58: angular flux outside the problem folder *)

(** A later save with the same key for a problem of another folder leaves the points, the flux, the energy, weights, edges and
    coefficients of the first and replaces its angular flux and directions. *)
Theorem C58_angular_flux_is_shared : forall pr sv1 sv2 o1 o2 w1 w2 N1 N2 f f1 f2 ld M mat,
  tame pr -> In (s_source sv1) source_names -> In (s_source sv2) source_names ->
  length (o_phi o1) = length (o_xs o1) -> (s_problem sv1 <> "transport" -> length (o_e o1) = length (o_xs o1)) ->
  o_coeff o1 <> nil ->
  save_solution pr sv1 o1 w1 N1 false 1 f = (Ok tt, f1) ->
  save_solution pr sv2 o2 w2 N2 false 1 f1 = (Ok tt, f2) ->
  save_key pr sv2 w2 N2 = save_key pr sv1 w1 N1 -> save_folder pr sv2 <> save_folder pr sv1 ->
  load_folder pr ld = save_folder pr sv1 -> l_source ld = s_source sv1 -> l_c ld = s_c sv1 ->
  exists r, call_sol pr ld (s_tfinal sv1) M w1 N1 mat (s_uncollided sv1) (s_moving sv1) (s_epsilon sv1) f2 = Ok r /\
    r_psi r = A2 (o_psi o2) /\ r_mus r = A1 (o_mus o2) /\
    r_xs r = map f32 (o_xs o1) /\ r_phi r = map f32 (o_phi o1) /\ r_ws r = A1 (o_ws o1) /\ r_edges r = A1 (o_edges o1).
Proof.
  intros pr sv1 sv2 o1 o2 w1 w2 N1 N2 f f1 f2 ld M mat T Hs1 Hs2 Lp Le Nc H1 H2 EK DF EF ES EC.
  set (F := save_folder pr sv1) in *. set (K := save_key pr sv1 w1 N1) in *. set (G := save_folder pr sv2) in *.
  pose proof (folder_plain pr sv1 T) as PF. fold F in PF.
  pose proof (folder_plain pr sv2 T) as PG. fold G in PG.
  assert (PK : plain K) by (apply key_plain; assumption).
  assert (FK : F <> K) by (apply folder_not_key; assumption).
  assert (GK : G <> K) by (apply folder_not_key; assumption).
  destruct (C56_save_then_load pr sv1 o1 w1 N1 false 1 f f1 ld M mat T Hs1 Lp Le Nc H1 EF ES EC) as (r & C & V).
  destruct (save_effect pr sv1 o1 w1 N1 false 1 f f1 F K T eq_refl eq_refl PF PK FK H1)
    as ((phi & e & z & Rp & Re & Vs) & Vp & Vm & Vc & Vw & Ve & _).
  destruct (save_effect pr sv2 o2 w2 N2 false 1 f1 f2 G K T eq_refl (eq_sym EK) PG PK GK H2)
    as (_ & Wp & Wm & _ & _ & _ & _ & _ & A).
  destruct (save_keeps pr sv2 o2 w2 N2 false 1 G K eq_refl (eq_sym EK) PG PK f1 _ f2 H2) as [_ B].
  assert (L3 : forall k, In k kinds -> lookup [F; k; K] f2 = lookup [F; k; K] f1).
  { intros k Hk. apply A; try discriminate. intros p Hp. cbn in Hp. repeat destruct Hp as [<-|Hp]; try contradiction; apply apart_head; congruence. }
  assert (GF : exists l, lookup [F] f1 = Some (Group l)).
  { cbn in Ve. cbn. destruct f1 as [l|]; [|discriminate]. destruct (assoc F l) as [[l'|]|]; try discriminate. eauto. }
  assert (GK' : exists l, lookup [K] f2 = Some (Group l)).
  { cbn in Wp. cbn. destruct f2 as [l|]; [|discriminate]. destruct (assoc K l) as [[l'|]|]; try discriminate. eauto. }
  assert (GK1 : exists l, lookup [K] f1 = Some (Group l)).
  { cbn in Vp. cbn. destruct f1 as [l|]; [|discriminate]. destruct (assoc K l) as [[l'|]|]; try discriminate. eauto. }
  destruct GF as [lF GF], GK' as [lK GK'], GK1 as [lK1 GK1].
  pose proof (B F) as BF. rewrite GF in BF. destruct BF as [lF' BF].
  exists {| r_xs := r_xs r; r_phi := r_phi r; r_e := r_e r; r_psi := A2 (o_psi o2); r_mus := A1 (o_mus o2); r_ws := r_ws r;
            r_edges := r_edges r; r_coeff := r_coeff r |}.
  split; [|destruct V as (V1 & V2 & V3 & V4 & V5 & V6 & V7 & _); cbn; auto 9].
  revert C. unfold call_sol. cbv zeta. rewrite key_str_name, EF, ES, EC.
  change (key_name pr (s_source sv1) (s_uncollided sv1) (s_moving sv1) N1 (s_tfinal sv1) (s_c sv1) w1 (s_epsilon sv1)) with K. fold F.
  unfold get_group. rewrite (resolve_plain _ _ PF). cbn [app]. rewrite GF, BF. cbn [bind]. unfold read.
  change ("solution/" ++ "/" ++ K)%string with ("solution" ++ "/" ++ "/" ++ K)%string.
  change ("coefficients/" ++ "/" ++ K)%string with ("coefficients" ++ "/" ++ "/" ++ K)%string.
  change ("weights/" ++ "/" ++ K)%string with ("weights" ++ "/" ++ "/" ++ K)%string.
  change ("edges/" ++ "/" ++ K)%string with ("edges" ++ "/" ++ "/" ++ K)%string.
  rewrite !(resolve_kind [F] _ K) by (auto; apply kind_plain; cbn; auto). cbn [app].
  rewrite !L3 by (cbn; auto). rewrite (resolve_abs _ _ PK), Vs, Vc, Vw, Ve, GK1, GK'. cbn [bind read_row getitem nth_error].
  rewrite (resolve_plain [K] "psi"), (resolve_plain [K] "mus") by (split; [lit|discriminate]). cbn [app].
  rewrite Vp, Vm, Wp, Wm. cbn [bind two_axes three_axes].
  destruct (if String.eqb (l_rad_or_transfer ld) "transfer" then _ else _) as [co|]; [|discriminate]. cbn [bind].
  intros C. injection C as <-. reflexivity.
Qed.
Print Assumptions C58_angular_flux_is_shared.
(** Two runs of different problems with the same parameters: the first one's angular flux is lost. *)
Theorem C58_own_angular_flux_refuted : exists pr sv1 sv2 o1 o2 w N f f1 f2 ld M mat r,
  tame pr /\ s_problem sv1 <> s_problem sv2 /\
  save_solution pr sv1 o1 w N false 1 f = (Ok tt, f1) /\ save_solution pr sv2 o2 w N false 1 f1 = (Ok tt, f2) /\
  load_folder pr ld = save_folder pr sv1 /\ l_source ld = s_source sv1 /\ l_c ld = s_c sv1 /\
  call_sol pr ld (s_tfinal sv1) M w N mat (s_uncollided sv1) (s_moving sv1) (s_epsilon sv1) f2 = Ok r /\
  r_psi r <> A2 (o_psi o1).
Proof.
  pose (sv2 := {| s_problem := "su_olson"; s_source := "square_IC"; s_tfinal := 1; s_moving := true; s_uncollided := true;
     s_c := 1; s_cv := 0; s_epsilon := 1 |}).
  assert (R1 : Reqb 1 1 = true) by (destruct (Reqb_spec 1 1); [reflexivity|congruence]).
  destruct (C56_ex 0) as (f1 & S1 & _).
  assert (S2 : exists f2, save_solution ex_print sv2 (ex_solution 7) (1/2) 4 false 1 f1 = (Ok tt, f2)).
  { assert (Q : f1 = snd (save_solution ex_print ex_saver (ex_solution 0) (1/2) 4 false 1 (Group nil))) by (rewrite S1; reflexivity).
    rewrite Q. clear. eexists. cbv -[f32 R0 R1 Reqb IZR Rdiv Rinv Rmult].
    replace (Reqb 1 1) with true; [reflexivity|]. symmetry. destruct (Reqb_spec 1 1); [reflexivity|congruence]. }
  destruct S2 as (f2 & S2).
  destruct (C58_angular_flux_is_shared ex_print ex_saver sv2 (ex_solution 0) (ex_solution 7) (1/2) (1/2) 4 4 (Group nil) f1 f2
              (ex_loader "transport" "rad") 0 "" ex_tame) as (r & C & P & _); try reflexivity; try assumption; try discriminate;
    try (cbn; auto; fail).
  exists ex_print, ex_saver, sv2, (ex_solution 0), (ex_solution 7), (1/2), 4%nat, (Group nil), f1, f2, (ex_loader "transport" "rad"), 0%nat, "", r.
  split; [exact ex_tame|]. split; [discriminate|]. split; [exact S1|]. split; [exact S2|]. split; [reflexivity|]. split; [reflexivity|].
  split; [reflexivity|]. split; [exact C|]. rewrite P. cbn. intros E. injection E as E. lra.
Qed.
Print Assumptions C58_own_angular_flux_refuted.

(** * C60: distinct parameters, distinct keys *)

(** Two equal keys agree in the source name, the flags, the cell count and the printed time, ratio and width; and in epsilon as
    printed, where 1 is told from everything else. *)
Theorem C60_key_determines_parameters : forall pr s u m N t c w e s' u' m' N' t' c' w' e',
  tame pr -> In s source_names -> In s' source_names ->
  key_str pr s u m N t c w e = key_str pr s' u' m' N' t' c' w' e' ->
  s = s' /\ u = u' /\ m = m' /\ N = N' /\ pr t = pr t' /\ pr c = pr c' /\ pr w = pr w' /\
  (e = 1 <-> e' = 1) /\ (e <> 1 -> pr e = pr e').
Proof.
  intros pr s u m N t c w e s' u' m' N' t' c' w' e' T Hs Hs' H. rewrite !key_str_name in H. injection H as H.
  exact (key_inj _ _ _ _ _ _ _ _ _ _ _ _ _ _ _ _ _ T Hs Hs' H).
Qed.
Print Assumptions C60_key_determines_parameters.
(** Hence, on numbers printed differently, keys are equal only for equal parameters. *)
Theorem C60_key_injective : forall pr (D : R -> Prop) s u m N t c w e s' u' m' N' t' c' w' e',
  tame pr -> (forall x y, D x -> D y -> pr x = pr y -> x = y) -> In s source_names -> In s' source_names ->
  Forall D [t; c; w; e; t'; c'; w'; e'] ->
  key_str pr s u m N t c w e = key_str pr s' u' m' N' t' c' w' e' ->
  (s, u, m, N, t, c, w, e) = (s', u', m', N', t', c', w', e').
Proof.
  intros pr D s u m N t c w e s' u' m' N' t' c' w' e' T I Hs Hs' HD H.
  destruct (C60_key_determines_parameters _ _ _ _ _ _ _ _ _ _ _ _ _ _ _ _ _ T Hs Hs' H) as (-> & -> & -> & -> & Ht & Hc & Hw & He1 & He2).
  rewrite !Forall_cons_iff in HD. destruct HD as (D1 & D2 & D3 & D4 & D5 & D6 & D7 & D8 & _).
  rewrite (I t t' D1 D5 Ht), (I c c' D2 D6 Hc), (I w w' D3 D7 Hw).
  destruct (Req_dec e 1) as [E|E]; [rewrite E, (proj1 He1 E)|rewrite (I e e' D4 D8 (He2 E))]; reflexivity.
Qed.
Print Assumptions C60_key_injective.
(** A printer that meets the contract and tells all natural numbers apart. *)
Definition nat_print (x : R) : string := str_nat (Z.to_nat (up x - 1)).
Example C60_ex : tame nat_print /\ (forall x y, (exists n, x = INR n) -> (exists n, y = INR n) -> nat_print x = nat_print y -> x = y).
Proof.
  split.
  - intros x. split; apply str_nat_free; cbn; auto.
  - assert (Q : forall n, nat_print (INR n) = str_nat n).
    { intros n. unfold nat_print. f_equal. rewrite <- (tech_up (INR n) (Z.of_nat n + 1)).
      - lia.
      - rewrite plus_IZR, <- INR_IZR_INZ. lra.
      - rewrite plus_IZR, <- INR_IZR_INZ. lra. }
    intros x y [a ->] [b ->] H. rewrite !Q in H. apply str_nat_inj in H. congruence.
Qed.

(** The problems the driver names keep their results apart: two saves share a folder only when they solve the same problem,
    with the same printed heat capacity where the folder carries it. *)
Definition problem_names : list string :=
  ["transport"; "rad_transfer_constant_cv"; "rad_transfer_constant_cv_s2"; "rad_transfer_constant_cv_thick";
   "rad_transfer_constant_cv_thick_s2"; "su_olson_s2"; "su_olson_thick_s2"; "su_olson_thick"; "su_olson"]%string.
Definition const_cv_names : list string :=
  ["rad_transfer_constant_cv"; "rad_transfer_constant_cv_s2"; "rad_transfer_constant_cv_thick"; "rad_transfer_constant_cv_thick_s2"]%string.
Theorem C60_folders_keep_problems_apart : forall pr sv sv', tame pr ->
  In (s_problem sv) problem_names -> In (s_problem sv') problem_names ->
  save_folder pr sv = save_folder pr sv' ->
  s_problem sv = s_problem sv' /\ (In (s_problem sv) const_cv_names -> pr (s_cv sv) = pr (s_cv sv')).
Proof.
  intros pr sv sv' T. destruct sv as [p ? ? ? ? ? v ?], sv' as [p' ? ? ? ? ? v' ?]. unfold save_folder, problem_names, const_cv_names. cbn [s_problem s_cv].
  assert (FA := proj2 (T v)). assert (FB := proj2 (T v')). set (a := pr v) in *. set (b := pr v') in *. clearbody a b.
  intros H H'. cbn [In] in H, H'.
  repeat destruct H as [<-|H]; try contradiction; repeat destruct H' as [<-|H']; try contradiction; cbn -[append In]; intros E;
  (split; [try reflexivity; exfalso|intros W; try (exfalso; cbn in W; repeat destruct W as [W|W]; try discriminate W; contradiction)]); try discriminate E;
  cbn [append] in E; (injection E as E || idtac);
  try exact E;
  try (exfalso; symmetry in E; eapply (free_end "_"); [|exact E]; assumption; fail);
  try (exfalso; eapply (free_end "_"); [|exact E]; assumption; fail);
  try (apply (split_at "_") in E as [E1 E2]; [|assumption|assumption]; first [exact E1|discriminate E2]).
Qed.
Print Assumptions C60_folders_keep_problems_apart.
Example C60_folders_ex : In "su_olson_s2"%string problem_names /\ In "transport"%string problem_names.
Proof. cbn. auto 10. Qed.

(** * C61: the name of the source *)

Lemma argmin_from_spec : forall l b a i pre,
  length pre = i -> (a < i)%nat -> nth_error pre a = Some b ->
  (forall j z, nth_error pre j = Some z -> (b <= z)%Z /\ ((j < a)%nat -> (b < z)%Z)) ->
  let r := argmin_from b a i l in
  exists v, nth_error (pre ++ l) r = Some v /\
    forall j z, nth_error (pre ++ l) j = Some z -> (v <= z)%Z /\ ((j < r)%nat -> (v < z)%Z).
Proof.
  induction l as [|x l IH]; intros b a i pre Hl Ha Hb Hm r.
  - subst r. cbn [argmin_from]. rewrite app_nil_r. exists b. split; assumption.
  - subst r. cbn [argmin_from].
    assert (N : nth_error (pre ++ [x]) i = Some x) by (rewrite nth_error_app2 by lia; rewrite Hl, Nat.sub_diag; reflexivity).
    assert (Hb' : nth_error (pre ++ [x]) a = Some b) by (rewrite nth_error_app1 by lia; exact Hb).
    assert (C : forall j z, nth_error (pre ++ [x]) j = Some z -> (j < i)%nat /\ nth_error pre j = Some z \/ j = i /\ z = x).
    { intros j z Hj. destruct (Nat.lt_ge_cases j i) as [L|L].
      - left. split; [exact L|]. rewrite nth_error_app1 in Hj by lia. exact Hj.
      - right. assert (j < length (pre ++ [x]))%nat by (apply nth_error_Some; congruence). rewrite app_length in *. cbn in *.
        assert (j = i) by lia. subst j. split; [reflexivity|congruence]. }
    replace (pre ++ x :: l)%list with ((pre ++ [x]) ++ l)%list by (rewrite <- app_assoc; reflexivity).
    destruct (Z.ltb_spec x b).
    + apply IH; [rewrite app_length; cbn; lia|lia|exact N|].
      intros j z Hj. destruct (C j z Hj) as [[L Hj']|[-> ->]]; [|split; lia].
      destruct (Hm j z Hj'). split; lia.
    + apply IH; [rewrite app_length; cbn; lia|lia|exact Hb'|].
      intros j z Hj. destruct (C j z Hj) as [[L Hj']|[-> ->]]; [apply (Hm j z Hj')|split; lia].
Qed.
Lemma name_at : forall l i v, nth_error l i = Some v ->
  (forall j z, nth_error l j = Some z -> (Z.abs (v - 1) <= Z.abs (z - 1))%Z /\ ((j < i)%nat -> (Z.abs (v - 1) < Z.abs (z - 1))%Z)) ->
  source_name_of l = getitem source_names i.
Proof.
  intros l i v Hi Hm. unfold source_name_of. destruct l as [|x l]; [destruct i; discriminate|]. cbn [map argmin bind].
  destruct (argmin_from_spec (map (fun z => Z.abs (z - 1)) l) (Z.abs (x - 1)) 0 1 [Z.abs (x - 1)] eq_refl) as (w & Hw & Hk); try reflexivity; [lia| |].
  { intros [|[|j]] z Hj; try discriminate. injection Hj as <-. split; lia. }
  change ([Z.abs (x - 1)] ++ map (fun z => Z.abs (z - 1)) l)%list with (map (fun z => Z.abs (z - 1)) (x :: l)) in *.
  set (r := argmin_from _ _ _ _) in *. f_equal. rewrite nth_error_map in Hw. destruct (nth_error (x :: l) r) as [y|] eqn:Ey; [|discriminate].
  injection Hw as <-. destruct (Nat.lt_trichotomy r i) as [L|[L|L]]; [|exact L|].
  - destruct (Hm r y Ey) as [_ K]. specialize (K L). destruct (Hk i (Z.abs (v - 1))) as [K' _]; [rewrite nth_error_map, Hi; reflexivity|]. lia.
  - destruct (Hk i (Z.abs (v - 1))) as [_ K]; [rewrite nth_error_map, Hi; reflexivity|]. specialize (K L). destruct (Hm r y Ey). lia.
Qed.

(** The one-hot vectors: positions 0 to 5 get their name, any later position an index error. *)
Theorem C61_one_hot : forall l i,
  nth_error l i = Some 1%Z -> (forall j z, nth_error l j = Some z -> j <> i -> z = 0%Z) ->
  source_name_of l = match i with
    | 0%nat => Ok "plane_IC" | 1%nat => Ok "square_IC" | 2%nat => Ok "square_s" | 3%nat => Ok "gaussian_IC"
    | 4%nat => Ok "MMS" | 5%nat => Ok "gaussian_s" | _ => Err IndexError end.
Proof.
  intros l i Hi Hz. rewrite (name_at l i 1 Hi).
  - destruct i as [|[|[|[|[|[|i]]]]]]; try reflexivity. unfold getitem. cbn [nth_error source_names]. destruct i; reflexivity.
  - intros j z Hj. destruct (Nat.eq_dec j i) as [->|D]; [assert (z = 1%Z) by congruence; subst; split; lia|].
    rewrite (Hz j z Hj D). cbn. split; [discriminate|reflexivity].
Qed.
Print Assumptions C61_one_hot.
Example C61_ex : source_name_of [0; 0; 1; 0; 0; 0; 0]%Z = Ok "square_s" /\ source_name_of [0; 0; 0; 0; 0; 0; 1]%Z = Err IndexError.
Proof. split; reflexivity. Qed.

(** The other vectors in use: all zero (the boundary source) and two followed by zeros (the dipole) get 'plane_IC', three followed
    by zeros (the self-similar plane source) gets 'square_IC'. *)
Theorem C61_wrong_names : forall n,
  source_name_of (repeat 0%Z (S n)) = Ok "plane_IC" /\
  source_name_of (2%Z :: repeat 0%Z n) = Ok "plane_IC" /\
  source_name_of (3%Z :: repeat 0%Z (S n)) = Ok "square_IC".
Proof.
  assert (Z0 : forall n j z, nth_error (repeat 0%Z n) j = Some z -> z = 0%Z).
  { intros n j z H. apply nth_error_In in H. apply repeat_spec in H. exact H. }
  intros n. split; [|split].
  - rewrite (name_at _ 0 0%Z); [reflexivity|reflexivity|]. intros j z H. apply Z0 in H. subst. split; lia.
  - rewrite (name_at _ 0 2%Z); [reflexivity|reflexivity|]. intros [|j] z H; cbn in H; [injection H as <-; split; lia|].
    apply Z0 in H. subst. split; [reflexivity|lia].
  - rewrite (name_at _ 1 0%Z); [reflexivity|reflexivity|]. intros [|j] z H; cbn [nth_error] in H; [injection H as <-; split; lia|].
    apply (Z0 (S n)) in H. subst. split; [reflexivity|lia].
Qed.
Print Assumptions C61_wrong_names.

(** * Saves succeed *)

(** A call that fits: a source name in use, and the flux (and the energy, unless the problem is 'transport') has one value per point
    or a single value. *)
Definition fits (a : save_call) : Prop :=
  In (s_source (a_sv a)) source_names /\
  (length (o_phi (a_o a)) = length (o_xs (a_o a)) \/ length (o_phi (a_o a)) = 1%nat) /\
  (s_problem (a_sv a) <> "transport" -> length (o_e (a_o a)) = length (o_xs (a_o a)) \/ length (o_e (a_o a)) = 1%nat).

(** On a file made by saves, from the empty file, every further save ends normally. *)
Theorem C57_saves_succeed : forall pr before a, tame pr -> Forall fits before -> fits a ->
  exists f', do_save pr a (after pr before (Group nil)) = (Ok tt, f').
Proof.
  intros pr before a T Hb Ha.
  set (tidy := fun f => forall sv s u m N t c w e, In s source_names -> groups_ok (save_folder pr sv) (key_name pr s u m N t c w e) f).
  assert (Step : forall f b, tidy f -> fits b -> exists f', do_save pr b f = (Ok tt, f') /\ tidy f').
  { intros f b Tf (Hs & Lp & Le).
    destruct (save_goes pr (a_sv b) (a_o b) (a_w b) (a_N b) (a_s2 b) (a_eps b) f _ _ eq_refl eq_refl) as (f' & H & S).
    - apply folder_plain. exact T.
    - apply key_plain; assumption.
    - apply folder_not_key. exact Hs.
    - apply Tf. exact Hs.
    - exact Lp.
    - intros Nt. apply Le. intros E. apply Nt. unfold save_folder. rewrite E. reflexivity.
    - exists f'. split; [exact H|]. intros sv s u m N t c w e Hs'.
      destruct (Tf sv s u m N t c w e Hs') as (N0 & NF & NK & NFk).
      assert (D := folder_not_key pr sv (s_source (a_sv b)) (s_uncollided (a_sv b)) (s_moving (a_sv b)) (a_N b) (s_tfinal (a_sv b)) (s_c (a_sv b)) (a_w b) (s_epsilon (a_sv b)) Hs).
      split; [apply S; [|exact N0]; cbn; intros Q; repeat destruct Q as [Q|Q]; try discriminate; contradiction|].
      split; [apply S; [|exact NF]; cbn; intros Q; repeat destruct Q as [Q|Q]; try discriminate; contradiction|].
      split; [apply S; [|exact NK]; cbn; intros Q; repeat destruct Q as [Q|Q]; try discriminate; contradiction|].
      intros k Hk. apply S; [|apply NFk; exact Hk]. cbn. intros Q. repeat destruct Q as [Q|Q]; try discriminate; try contradiction; congruence. }
  assert (T0 : tidy (Group nil)).
  { intros sv s u m N t c w e _. repeat split; intros; exact I. }
  assert (Tb : tidy (after pr before (Group nil))).
  { revert T0. generalize (Group nil). induction Hb as [|b l Hb1 Hb2 IH]; intros f Tf; [exact Tf|]. cbn [after].
    destruct (Step f b Tf Hb1) as (f' & H & Tf'). rewrite H. apply IH. exact Tf'. }
  destruct (Step _ a Tb Ha) as (f' & H & _). exists f'. exact H.
Qed.
Print Assumptions C57_saves_succeed.
Example C57_ex : forall x, fits {| a_sv := ex_saver; a_o := ex_solution x; a_w := 1; a_N := 4; a_s2 := false; a_eps := 1 |}.
Proof. intros x. split; [cbn; auto|]. split; [left; reflexivity|]. intros H. exfalso. apply H. reflexivity. Qed.
