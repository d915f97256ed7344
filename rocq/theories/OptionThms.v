(** What the loaded opacity options do (C148) and the record of heat-wave positions (C149). *)
From Coq Require Import String.
From Verif Require Import Py PyLemmas FuncModel ConfigModel ConfigData ConfigThms ClosureModel BenchModel BenchProofs OutProofs OptionModel.
Open Scope string_scope.
Open Scope R_scope.

(* ---------------------------------------------------------------- C148 *)
(** The option group as the shipped mesh file spells it, with any values. *)
Definition shipped_group (constant linear siewert1 siewert2 gaussian f_sedov : Z) : list (string * Z) :=
  [("constant", constant); ("linear", linear); ("siewert1", siewert1); ("siewert2", siewert2); ("gaussian", gaussian); ("f_sedov", f_sedov)].
(** With the shipped spelling four options can be used; with none of them on, in particular with linear or f_sedov on, the
    first evaluation of the opacity fails. *)
Theorem C148_shipped_options : forall c l s1 s2 g f v x t, let d := shipped_group c l s1 s2 g f in
  (c = 1%Z -> sigma_option d v x t = Ok 1) /\
  (c <> 1%Z -> g = 1%Z -> sigma_option d v x t = Ok (exp (- (x ^ 2) / 8))) /\
  (c <> 1%Z -> g <> 1%Z -> s1 = 1%Z -> sigma_option d v x t = Ok (exp (- (x + 5 / 2)))) /\
  (c <> 1%Z -> g <> 1%Z -> s1 <> 1%Z -> s2 = 1%Z -> sigma_option d v x t = Ok (exp (- x / 10 ^ 11))) /\
  (c <> 1%Z -> g <> 1%Z -> s1 <> 1%Z -> s2 <> 1%Z -> sigma_option d v x t = Err KeyError).
Proof.
  intros c l s1 s2 g f v x t d. unfold d, sigma_option, option_on, shipped_group; cbn [assoc String.eqb Ascii.eqb Bool.eqb bind].
  destruct (Z.eqb_spec c 1), (Z.eqb_spec g 1), (Z.eqb_spec s1 1), (Z.eqb_spec s2 1); cbn [bind]; repeat split; intros; try contradiction; auto;
    f_equal; try lra; try (f_equal; field); try (f_equal; lra).
Qed.
Print Assumptions C148_shipped_options.
(** Every configuration loaded with the shipped mesh file has opacity one everywhere. *)
Theorem C148_shipped_file : forall src par c v x t, load src par yaml_mesh_parameters = Ok c -> sigma_option (c_sigma_func c) v x t = Ok 1.
Proof.
  intros src par c v x t H.
  assert (E : c_sigma_func c = shipped_group 1 0 0 0 0 0).
  { unfold load in H. repeat step H. injection H as <-. cbn [c_sigma_func].
    match goal with K : (v <- key yaml_mesh_parameters "sigma_func" ;; dictionary_loader v) = Ok _ |- _ => vm_compute in K; injection K as <- end. reflexivity. }
  rewrite E. apply (proj1 (C148_shipped_options 1 0 0 0 0 0 v x t)). reflexivity.
Qed.
Print Assumptions C148_shipped_file.
(** Replace the group in a mesh file. *)
Definition with_opacity (g : yval) (mesh : yval) : yval :=
  match mesh with YDict l => YDict (map (fun kv : string * yval => if String.eqb (fst kv) "sigma_func" then (fst kv, g) else kv) l) | m => m end.
Definition opacity_group (b : list bool) : yval :=
  YDict (combine ["constant"; "linear"; "siewert1"; "siewert2"; "gaussian"; "f_sedov"] (map YBool b)).
(** The loader accepts the shipped square pulse with the option f_sedov (or linear) on instead of constant; the opacity then
    has no value at any point. *)
Theorem C148_every_option_usable_refuted : exists g, In g [opacity_group [false; false; false; false; false; true]; opacity_group [false; true; false; false; false; false]] /\
  exists c, load "square_IC" yaml_transport (with_opacity g yaml_mesh_parameters) = Ok c /\ forall v x t, sigma_option (c_sigma_func c) v x t = Err KeyError.
Proof.
  eexists. split; [left; reflexivity|].
  destruct (load "square_IC" yaml_transport (with_opacity (opacity_group [false; false; false; false; false; true]) yaml_mesh_parameters)) as [c|] eqn:H; [|vm_compute in H; discriminate].
  exists c. split; [reflexivity|]. intros v x t.
  assert (E : c_sigma_func c = shipped_group 0 0 0 0 0 1).
  { unfold load in H. repeat step H. injection H as <-. cbn [c_sigma_func].
    match goal with K : (v <- key _ "sigma_func" ;; dictionary_loader v) = Ok _ |- _ => vm_compute in K; injection K as <- end. reflexivity. }
  rewrite E. apply (C148_shipped_options 0 0 0 0 0 1 v x t); discriminate.
Qed.
Print Assumptions C148_every_option_usable_refuted.
(** When the group has the five spellings the code looks up, the opacity is the one of the remaining model, with the options
    that equal one. *)
Definition on (d : list (string * Z)) (k : string) : bool := match assoc k d with Some z => (z =? 1)%Z | None => false end.
Definition group_of (d : list (string * Z)) : sfuncs :=
  {| f_constant := on d "constant"; f_gaussian := on d "gaussian"; f_siewert1 := on d "siewert1"; f_siewert2 := on d "siewert2"; f_sedov := on d "fake_sedov" |}.
Theorem C148_complete_group : forall c d x t, ofun c = group_of d ->
  (forall k, In k ["constant"; "gaussian"; "siewert1"; "siewert2"; "fake_sedov"] -> In k (map fst d)) ->
  sigma_option d (o_v c) x t = sigma_function c x t.
Proof.
  intros c d x t Hc Hk.
  assert (A : forall k, In k (map fst d) -> option_on d k = Ok (on d k)).
  { clear. intros k. unfold option_on, on. induction d as [|[k' z] d IH]; cbn [map In fst assoc]; [easy|]. intros [->|Hk].
    - now rewrite String.eqb_refl.
    - destruct (String.eqb k k'); auto. }
  unfold sigma_option, sigma_function. rewrite Hc. cbn [group_of f_constant f_gaussian f_siewert1 f_siewert2 f_sedov].
  rewrite !A by (apply Hk; cbn; tauto). cbn [bind]. repeat match goal with |- context [if on d ?k then _ else _] => destruct (on d k); cbn [bind]; auto end.
Qed.
Print Assumptions C148_complete_group.
(** In general: it fails with a KeyError exactly when a missing spelling is reached before an option that is on. *)
Theorem C148_missing_spelling : forall d v x t,
  sigma_option d v x t = Err KeyError <->
  exists pre k post, ["constant"; "gaussian"; "siewert1"; "siewert2"; "fake_sedov"] = (pre ++ k :: post)%list /\
    assoc k d = None /\ forall k', In k' pre -> exists z, assoc k' d = Some z /\ z <> 1%Z.
Proof.
  intros d v x t. unfold sigma_option, option_on. split.
  - intros H.
    destruct (assoc "constant" d) as [z1|] eqn:E1; cbn [bind] in H; [|exists [], "constant", ["gaussian"; "siewert1"; "siewert2"; "fake_sedov"]; repeat split; [assumption|easy]].
    destruct (Z.eqb_spec z1 1); [discriminate H|].
    destruct (assoc "gaussian" d) as [z2|] eqn:E2; cbn [bind] in H; [|exists ["constant"], "gaussian", ["siewert1"; "siewert2"; "fake_sedov"]; repeat split; [assumption|]; cbn [In]; intros k' Hk'; repeat destruct Hk' as [<-|Hk']; eauto; contradiction].
    destruct (Z.eqb_spec z2 1); [discriminate H|].
    destruct (assoc "siewert1" d) as [z3|] eqn:E3; cbn [bind] in H; [|exists ["constant"; "gaussian"], "siewert1", ["siewert2"; "fake_sedov"]; repeat split; [assumption|]; cbn [In]; intros k' Hk'; repeat destruct Hk' as [<-|Hk']; eauto; contradiction].
    destruct (Z.eqb_spec z3 1); [discriminate H|].
    destruct (assoc "siewert2" d) as [z4|] eqn:E4; cbn [bind] in H; [|exists ["constant"; "gaussian"; "siewert1"], "siewert2", ["fake_sedov"]; repeat split; [assumption|]; cbn [In]; intros k' Hk'; repeat destruct Hk' as [<-|Hk']; eauto; contradiction].
    destruct (Z.eqb_spec z4 1); [discriminate H|].
    destruct (assoc "fake_sedov" d) as [z5|] eqn:E5; cbn [bind] in H; [destruct (z5 =? 1)%Z; discriminate H|].
    exists ["constant"; "gaussian"; "siewert1"; "siewert2"], "fake_sedov", []; repeat split; [assumption|]; cbn [In]; intros k' Hk'; repeat destruct Hk' as [<-|Hk']; eauto; contradiction.
  - intros (pre & k & post & E & N & P).
    do 5 (destruct pre as [|p pre]; [cbn [app] in E; injection E as <- _; rewrite N; reflexivity|
      cbn [app] in E; injection E as <- E; destruct (P _ (or_introl eq_refl)) as (z & -> & Hz); cbn [bind]; apply Z.eqb_neq in Hz; rewrite Hz; clear z Hz;
      assert (P' := fun k' H => P k' (or_intror H)); clear P; rename P' into P]).
    destruct pre; discriminate.
Qed.
Print Assumptions C148_missing_spelling.
Example C148_example : sigma_option [("constant", 0%Z); ("gaussian", 0%Z); ("siewert1", 0%Z); ("siewert2", 0%Z); ("fake_sedov", 1%Z)] 1 1 0 = Ok (2 / 10 * 0 + exp (- 1)) /\
  sigma_option (shipped_group 0 0 0 0 0 1) 1 1 0 = Err KeyError.
Proof.
  split; [|apply (C148_shipped_options 0 0 0 0 0 1 1 1 0); discriminate].
  unfold sigma_option, option_on; cbn [assoc String.eqb Ascii.eqb Bool.eqb bind Z.eqb Pos.eqb]. cbv zeta. unfold xi2, heaviside. f_equal.
  rewrite Rltb_false by lra. rewrite Rltb_true by lra. match goal with |- exp ?a * _ + _ = _ => replace a with (-1) by field end. ring.
Qed.

(* ---------------------------------------------------------------- C149 *)
(** Difference quotients between neighbours in the order of collection, from the second stored point on. *)
Definition quotient (e xs : list R) (i : nat) : R := (nth (i + 1) e 0 - nth i e 0) / (nth (i + 1) xs 0 - nth i xs 0).
Definition steepest (e xs : list R) (m : R) : Prop :=
  (forall i, (1 <= i)%nat -> (i < length e - 1)%nat -> Rabs (quotient e xs i) <= m) /\
  (m = 0 \/ exists i, (1 <= i)%nat /\ (i < length e - 1)%nat /\ m = Rabs (quotient e xs i)).
(** Steps between stored points whose quotient is taken are not zero. *)
Definition no_repeat (xs : list R) : Prop := forall i, (1 <= i)%nat -> (i < length xs - 1)%nat -> nth (i + 1) xs 0 <> nth i xs 0.

Lemma getitem_nth (l : list R) i : (i < length l)%nat -> getitem l i = Ok (nth i l 0).
Proof. intros H. unfold getitem. rewrite (nth_error_nth' l 0 H). reflexivity. Qed.
Lemma deriv_entry_ok e xs i : length e = length xs -> no_repeat xs -> (i < length e)%nat ->
  deriv_entry e xs i = Ok (if ((1 <=? i) && (i <? length e - 1))%nat then quotient e xs i else 0).
Proof.
  intros L N Hi. unfold deriv_entry. destruct (Nat.leb_spec 1 i); cbn [andb]; auto. destruct (Nat.ltb_spec i (length e - 1)); auto.
  rewrite !getitem_nth by lia. cbn [bind]. rewrite Reqb_false; [reflexivity|]. specialize (N i ltac:(lia) ltac:(lia)). lra.
Qed.
Lemma fold_max l : forall z, z <= fold_left Rmax l z /\ (forall y, In y l -> y <= fold_left Rmax l z) /\ (fold_left Rmax l z = z \/ In (fold_left Rmax l z) l).
Proof.
  induction l as [|y l IH]; intros z; cbn [fold_left In]; [split; [lra|split; [easy|now left]]|].
  destruct (IH (Rmax z y)) as (A & B & C). pose proof (Rmax_l z y). pose proof (Rmax_r z y). split; [lra|]. split.
  - intros w [->|Hw]; [lra|auto].
  - destruct C as [C|C]; [|auto]. rewrite C. unfold Rmax. destruct (Rle_dec z y); auto.
Qed.
Lemma list_max_steepest e xs : length e = length xs -> no_repeat xs -> (1 <= length e)%nat ->
  exists d m, deriv_list e xs = Ok d /\ list_max (map Rabs d) = Ok m /\ steepest e xs m.
Proof.
  intros L N H1. set (g := fun i => if ((1 <=? i) && (i <? length e - 1))%nat then quotient e xs i else 0).
  assert (D : deriv_list e xs = Ok (map g (seq 0 (length e)))).
  { apply map_result_ok_in. intros i Hi. apply in_seq in Hi. apply deriv_entry_ok; auto. lia. }
  set (l := map Rabs (map g (seq 0 (length e)))).
  assert (Q : exists m, list_max l = Ok m /\ (forall y, In y l -> y <= m) /\ In m l).
  { destruct l as [|z l'] eqn:E; [apply (f_equal (@length R)) in E; unfold l in E; rewrite !map_length, seq_length in E; cbn in E; lia|].
    cbn [list_max]. eexists. split; [reflexivity|]. destruct (fold_max l' z) as (A & B & C). split.
    - intros y [->|Hy]; auto.
    - cbn [In]. destruct C as [C|C]; [left; now rewrite C|now right]. }
  destruct Q as (m & Em & Mx & Im). exists (map g (seq 0 (length e))), m. split; [exact D|]. split; [exact Em|]. split.
  - intros i H0 Hi. apply Mx. unfold l. apply in_map_iff. exists (quotient e xs i). split; auto. apply in_map_iff. exists i. split; [|apply in_seq; lia].
    unfold g. rewrite (proj2 (Nat.leb_le 1 i)) by lia. rewrite (proj2 (Nat.ltb_lt i (length e - 1))) by lia. reflexivity.
  - unfold l in Im. apply in_map_iff in Im as (y & <- & Iy). apply in_map_iff in Iy as (i & <- & Ii). apply in_seq in Ii. unfold g.
    destruct (Nat.leb_spec 1 i); cbn [andb]; [|left; apply Rabs_R0]. destruct (Nat.ltb_spec i (length e - 1)); [|left; apply Rabs_R0].
    right. exists i. repeat split; auto; lia.
Qed.
(** What is stored before the evaluation in one call. *)
Definition stored (save : bool) (pts : list (R * R)) (w : wrec) : wrec :=
  {| r_times := r_times w; r_e := r_e w ++ (if save then map snd pts else nil); r_xs := r_xs w ++ (if save then map fst pts else nil); r_wave := r_wave w |}.
Definition well_kept (w : wrec) : Prop := length (r_e w) = length (r_xs w) /\ (1 <= length (r_e w))%nat.
Lemma saver_stored save t last pts w : derivative_saver save t last pts w =
  if last then
    deriv <- deriv_list (r_e (stored save pts w)) (r_xs (stored save pts w)) ;;
    m <- list_max (map Rabs deriv) ;;
    i <- rargmin (map (fun e => Rabs (Rabs e - m)) (r_e (stored save pts w))) ;;
    x <- getitem (r_xs (stored save pts w)) i ;;
    Ok {| r_times := r_times w ++ [t]; r_e := r_e (stored save pts w); r_xs := r_xs (stored save pts w); r_wave := r_wave w ++ [Rabs x] |}
  else Ok (stored save pts w).
Proof. destruct w as [ti e xs wa], save, last; unfold derivative_saver, stored; cbn [r_times r_e r_xs r_wave]; rewrite ?app_nil_r; reflexivity. Qed.

(** One call at the last cell records the distance from the origin of the FIRST stored point at which the energy (not its
    derivative) is closest to the largest difference quotient over everything stored so far in the run. *)
Theorem C149_what_is_recorded : forall save t pts w, well_kept w -> let w1 := stored save pts w in no_repeat (r_xs w1) ->
  exists m i, steepest (r_e w1) (r_xs w1) m /\ (i < length (r_e w1))%nat /\
    (forall j, (j < length (r_e w1))%nat -> Rabs (Rabs (nth i (r_e w1) 0) - m) <= Rabs (Rabs (nth j (r_e w1) 0) - m)) /\
    (forall j, (j < i)%nat -> Rabs (Rabs (nth i (r_e w1) 0) - m) < Rabs (Rabs (nth j (r_e w1) 0) - m)) /\
    derivative_saver save t true pts w =
      Ok {| r_times := r_times w ++ [t]; r_e := r_e w1; r_xs := r_xs w1; r_wave := r_wave w ++ [Rabs (nth i (r_xs w1) 0)] |}.
Proof.
  intros save t pts w (L & H1) w1 N.
  assert (L1 : length (r_e w1) = length (r_xs w1)) by (unfold w1, stored; cbn [r_e r_xs]; destruct save; rewrite ?app_nil_r, ?app_length, ?map_length; lia).
  assert (L2 : (1 <= length (r_e w1))%nat) by (unfold w1, stored; cbn [r_e]; rewrite app_length; lia).
  destruct (list_max_steepest _ _ L1 N L2) as (d & m & Ed & Em & St).
  destruct (rargmin_ok (map (fun e => Rabs (Rabs e - m)) (r_e w1))) as (i & Ei & Hi & Mi & Fi); [rewrite map_length; lia|].
  rewrite map_length in Hi, Mi.
  assert (NT : forall j, (j < length (r_e w1))%nat -> nth j (map (fun e => Rabs (Rabs e - m)) (r_e w1)) 0 = Rabs (Rabs (nth j (r_e w1) 0) - m)).
  { intros j Hj. rewrite (nth_indep _ 0 (Rabs (Rabs 0 - m))) by (rewrite map_length; auto). apply (map_nth (fun e => Rabs (Rabs e - m))). }
  exists m, i. split; [auto|]. split; [auto|]. split; [intros j Hj; rewrite <- !NT by auto; auto|]. split; [intros j Hj; rewrite <- !NT by lia; auto|].
  rewrite saver_stored. fold w1. rewrite Ed. cbn [bind]. rewrite Em. cbn [bind]. rewrite Ei. cbn [bind]. rewrite getitem_nth by lia. reflexivity.
Qed.
Print Assumptions C149_what_is_recorded.

(** Whatever a run of calls records: one position for each call at a last cell, after the initial zero, each the distance of
    zero or of a point handed over in the run. *)
Lemma saver_step save t last pts w w' : well_kept w -> derivative_saver save t last pts w = Ok w' ->
  well_kept w' /\ r_xs w' = r_xs (stored save pts w) /\ r_times w' = (r_times w ++ (if last then [t] else nil))%list /\
  exists p, r_wave w' = (r_wave w ++ p)%list /\ length p = (if last then 1 else 0)%nat /\ forall a, In a p -> exists x, In x (r_xs w') /\ a = Rabs x.
Proof.
  intros (L & H1) H. rewrite saver_stored in H.
  assert (L1 : length (r_e (stored save pts w)) = length (r_xs (stored save pts w))) by (unfold stored; cbn [r_e r_xs]; destruct save; rewrite ?app_nil_r, ?app_length, ?map_length; lia).
  assert (L2 : (1 <= length (r_e (stored save pts w)))%nat) by (unfold stored; cbn [r_e]; rewrite app_length; lia).
  destruct last.
  - step H. step H. step H. step H. injection H as <-. cbn [r_times r_e r_xs r_wave]. split; [split; auto|]. split; [auto|]. split; [auto|].
    exists [Rabs a2]. split; [auto|]. split; [auto|]. intros b [<-|[]]. exists a2. split; auto. unfold getitem in E2. destruct (nth_error _ a1) eqn:E3; [|discriminate]. injection E2 as <-. now apply nth_error_In in E3.
  - injection H as <-. split; [split; auto|]. split; [auto|]. split; [cbn; now rewrite app_nil_r|]. exists nil. cbn. rewrite app_nil_r. split; [auto|]. split; [auto|]. easy.
Qed.
Lemma saver_run_gen save calls : forall w w', well_kept w -> saver_run save calls w = Ok w' ->
  r_times w' = (r_times w ++ map (fun c => fst (fst c)) (filter (fun c => snd (fst c)) calls))%list /\
  exists p, r_wave w' = (r_wave w ++ p)%list /\ length p = length (filter (fun c : R * bool * list (R * R) => snd (fst c)) calls) /\
  (forall x, In x (r_xs w) -> In x (r_xs w')) /\
  (forall x, In x (r_xs w') -> In x (r_xs w) \/ exists t last pts, In (t, last, pts) calls /\ In x (map fst pts)) /\
  forall a, In a p -> exists x, In x (r_xs w') /\ a = Rabs x.
Proof.
  induction calls as [|[[t last] pts] calls IH]; intros w w' K H; cbn [saver_run] in H.
  - injection H as <-. cbn. rewrite app_nil_r. split; [auto|]. exists nil. rewrite app_nil_r. repeat split; auto; easy.
  - step H. destruct (saver_step _ _ _ _ _ _ K E) as (K1 & X1 & T1 & p1 & W1 & L1 & P1). destruct (IH _ _ K1 H) as (T2 & p2 & W2 & L2 & I2 & J2 & P2).
    cbn [filter snd fst]. split; [rewrite T2, T1, <- app_assoc; now destruct last|].
    exists (p1 ++ p2)%list. split; [now rewrite W2, W1, app_assoc|]. split; [rewrite app_length, L1, L2; now destruct last|].
    assert (S : forall x, In x (r_xs (stored save pts w)) -> In x (r_xs w) \/ In x (map fst pts)).
    { intros x Hx. unfold stored in Hx. cbn [r_xs] in Hx. apply in_app_iff in Hx as [Hx|Hx]; auto. destruct save; [auto|easy]. }
    split; [intros x Hx; apply I2; rewrite X1; unfold stored; cbn [r_xs]; apply in_app_iff; now left|]. split.
    + intros x Hx. destruct (J2 x Hx) as [Hy|(t' & l' & p' & A & B)].
      * rewrite X1 in Hy. destruct (S x Hy) as [|Hz]; [now left|]. right. exists t, last, pts. split; [now left|auto].
      * right. exists t', l', p'. split; [now right|auto].
    + intros a' Ha. apply in_app_iff in Ha as [Ha|Ha]; [|auto]. destruct (P1 _ Ha) as (x & Hx & ->). exists x. split; auto.
Qed.
Theorem C149_run : forall save calls w, saver_run save calls wrec0 = Ok w ->
  r_times w = 0 :: map (fun c => fst (fst c)) (filter (fun c => snd (fst c)) calls) /\
  length (r_wave w) = length (r_times w) /\
  forall a, In a (r_wave w) -> a = 0 \/ exists t last pts x, In (t, last, pts) calls /\ In x (map fst pts) /\ a = Rabs x.
Proof.
  intros save calls w H. destruct (saver_run_gen save calls wrec0 w) as (T & p & W & L & _ & J & P); [split; cbn; lia|auto|].
  cbn [wrec0 r_times r_wave app] in T, W. rewrite T, W. split; [reflexivity|]. split; [cbn [length]; now rewrite map_length, L|].
  intros a [<-|Ha]; [now left|]. destruct (P a Ha) as (x & Hx & ->). destruct (J x Hx) as [[<-|[]]|(t & l & pts & A & B)]; [left; apply Rabs_R0|].
  right. exists t, l, pts, x. auto.
Qed.
Print Assumptions C149_run.
(** With saving off every call succeeds and records the origin, whatever the solution. *)
Theorem C149_saving_off : forall calls, exists w, saver_run false calls wrec0 = Ok w /\ Forall (fun a => a = 0) (r_wave w).
Proof.
  assert (G : forall calls w, r_e w = [0] -> r_xs w = [0] -> Forall (fun a => a = 0) (r_wave w) -> exists w', saver_run false calls w = Ok w' /\ Forall (fun a => a = 0) (r_wave w')).
  { induction calls as [|[[t last] pts] calls IH]; intros w He Hx Hw; cbn [saver_run]; [eauto|].
    rewrite saver_stored. unfold stored. cbn [r_e r_xs]. rewrite !app_nil_r, He, Hx. destruct last; cbn [bind]; [|apply IH; auto].
    change (deriv_list [0] [0]) with (Ok [0]). cbn [bind map list_max fold_left]. unfold rargmin. cbn [map rargmin_from bind getitem nth_error].
    apply IH; cbn [r_e r_xs r_wave]; auto. apply Forall_app. split; auto. constructor; auto. apply Rabs_R0. }
  intros calls. apply G; cbn; auto.
Qed.
Print Assumptions C149_saving_off.
(** A profile that is flat at height [h] up to the point 2 [s] and zero from 3 [s] on, in the unit of length s. *)
Definition plateau (h s : R) : list (R * R) := [(1 * s, h); (2 * s, h); (3 * s, 0); (4 * s, 0)].
Definition slope (h s : R) : list (R * R) := [(1 * s, 4 * h); (2 * s, 3 * h); (3 * s, 1 * h); (4 * s, 0)].
Ltac index_upto n i Hi := lazymatch n with O => exfalso; cbn in Hi; lia | S ?k => destruct i as [|i]; [cbn [nth] in *|index_upto k i Hi] end.
Ltac index_cases i Hi := index_upto 10%nat i Hi.
Lemma recorded_is save t pts w m k : well_kept w -> no_repeat (r_xs (stored save pts w)) ->
  let w1 := stored save pts w in (k < length (r_e w1))%nat -> steepest (r_e w1) (r_xs w1) m ->
  (forall j, (j < length (r_e w1))%nat -> j <> k -> Rabs (Rabs (nth k (r_e w1) 0) - m) < Rabs (Rabs (nth j (r_e w1) 0) - m) \/ ((k < j)%nat /\ Rabs (Rabs (nth k (r_e w1) 0) - m) <= Rabs (Rabs (nth j (r_e w1) 0) - m))) ->
  derivative_saver save t true pts w = Ok {| r_times := r_times w ++ [t]; r_e := r_e w1; r_xs := r_xs w1; r_wave := r_wave w ++ [Rabs (nth k (r_xs w1) 0)] |}.
Proof.
  intros K N w1 Hk St Hm. destruct (C149_what_is_recorded save t pts w K N) as (m' & i & St' & Hi & Mi & Fi & ->). fold w1 in St', Hi, Mi, Fi.
  assert (M : m' = m).
  { destruct St as [A [B|(a & A1 & A2 & B)]], St' as [A' [B'|(a' & A1' & A2' & B')]]; subst; auto.
    - specialize (A _ A1' A2'). pose proof (Rabs_pos (quotient (r_e w1) (r_xs w1) a')). lra.
    - specialize (A' _ A1 A2). pose proof (Rabs_pos (quotient (r_e w1) (r_xs w1) a)). lra.
    - specialize (A _ A1' A2'). specialize (A' _ A1 A2). lra. }
  subst m'. assert (i = k) as ->; [|reflexivity]. destruct (Nat.eq_dec i k) as [|Ne]; auto. exfalso.
  specialize (Mi k Hk). destruct (Hm i Hi Ne) as [|[L Q]]; [lra|]. specialize (Fi k L). lra.
Qed.
Ltac abs_calc := repeat match goal with |- context [Rabs ?a] => match a with context [Rabs _] => fail 1 | _ => first [rewrite (Rabs_pos_eq a) by lra | rewrite (Rabs_left a) by lra] end end.
Lemma wk0 : well_kept wrec0. Proof. split; cbn; lia. Qed.
Lemma plateau_recorded t : derivative_saver true t true (plateau 5 1) wrec0 =
  Ok {| r_times := [0; t]; r_e := [0; 5; 5; 0; 0]; r_xs := [0; 1 * 1; 2 * 1; 3 * 1; 4 * 1]; r_wave := [0; Rabs (1 * 1)] |}.
Proof.
  apply (recorded_is true t (plateau 5 1) wrec0 5 1 wk0); cbn [stored r_e r_xs wrec0 plateau map fst snd app length].
  - intros i H1 Hi. cbn in Hi. index_cases i Hi; cbn; try lia; lra.
  - lia.
  - split.
    + intros i H1 Hi. cbn in Hi. index_cases i Hi; try (exfalso; lia); unfold quotient; cbn [nth Nat.add].
      * replace ((5 - 5) / (2 * 1 - 1 * 1)) with 0 by field. abs_calc. lra.
      * replace ((0 - 5) / (3 * 1 - 2 * 1)) with (-5) by field. abs_calc. lra.
      * replace ((0 - 0) / (4 * 1 - 3 * 1)) with 0 by field. abs_calc. lra.
    + right. exists 2%nat. unfold quotient; cbn [nth Nat.add length]. split; [lia|]. split; [lia|]. replace ((0 - 5) / (3 * 1 - 2 * 1)) with (-5) by field. abs_calc. lra.
  - intros j Hj Nj. cbn in Hj. index_cases j Hj; try (exfalso; lia); abs_calc; (left; lra) || (right; split; [lia|lra]).
Qed.
(** The recorded position is not where the profile is steepest: flat up to 2 and zero from 3 on, it records 1. *)
Theorem C149_position_of_the_front_refuted : exists t pts w, derivative_saver true t true pts wrec0 = Ok w /\ r_wave w = [0; 1] /\
  forall i, (1 <= i)%nat -> (i < length (r_e w) - 1)%nat -> nth i (r_xs w) 0 <> 2 -> Rabs (quotient (r_e w) (r_xs w) i) < Rabs (quotient (r_e w) (r_xs w) 2).
Proof.
  exists 0, (plateau 5 1). eexists. split; [apply plateau_recorded|]. cbn [r_wave r_e r_xs length]. split; [rewrite Rmult_1_r, Rabs_R1; reflexivity|].
  intros i H1 Hi. cbn in Hi. index_cases i Hi; try (exfalso; lia); unfold quotient; cbn [nth Nat.add]; intros N.
  - replace ((5 - 5) / (2 * 1 - 1 * 1)) with 0 by field. replace ((0 - 5) / (3 * 1 - 2 * 1)) with (-5) by field. abs_calc. lra.
  - lra.
  - replace ((0 - 0) / (4 * 1 - 3 * 1)) with 0 by field. replace ((0 - 5) / (3 * 1 - 2 * 1)) with (-5) by field. abs_calc. lra.
Qed.
Print Assumptions C149_position_of_the_front_refuted.
Lemma slope_quotients s i : 0 < s -> (1 <= i)%nat -> (i < 4)%nat -> quotient [0; 4 * 1; 3 * 1; 1 * 1; 0] [0; 1 * s; 2 * s; 3 * s; 4 * s] i = - (if (i =? 2)%nat then 2 else 1) / s.
Proof. intros Hs H1 Hi. index_cases i Hi; try (exfalso; lia); unfold quotient; cbn [nth Nat.add Nat.eqb]; field; lra. Qed.
Lemma slope_recorded t s k : 0 < s -> (k < 5)%nat ->
  (forall j, (j < 5)%nat -> j <> k -> Rabs (Rabs (nth k [0; 4 * 1; 3 * 1; 1 * 1; 0] 0) - 2 / s) < Rabs (Rabs (nth j [0; 4 * 1; 3 * 1; 1 * 1; 0] 0) - 2 / s) \/ ((k < j)%nat /\ Rabs (Rabs (nth k [0; 4 * 1; 3 * 1; 1 * 1; 0] 0) - 2 / s) <= Rabs (Rabs (nth j [0; 4 * 1; 3 * 1; 1 * 1; 0] 0) - 2 / s))) ->
  exists w, derivative_saver true t true (slope 1 s) wrec0 = Ok w /\ r_wave w = [0; Rabs (nth k [0; 1 * s; 2 * s; 3 * s; 4 * s] 0)].
Proof.
  intros Hs Hk Hm. assert (P : 0 < / s) by now apply Rinv_0_lt_compat. eexists. split; [apply (recorded_is true t (slope 1 s) wrec0 (2 / s) k wk0)|]; cbn [stored r_e r_xs r_wave wrec0 slope map fst snd app length]; auto.
  - intros i H1 Hi. cbn in Hi. index_cases i Hi; cbn; try lia; lra.
  - split.
    + intros i H1 Hi. cbn in Hi. rewrite slope_quotients by lia || auto. unfold Rdiv. destruct (i =? 2)%nat; rewrite Rabs_left by lra; lra.
    + right. exists 2%nat. cbn [length]. split; [lia|]. split; [lia|]. rewrite slope_quotients by lia || auto. cbn [Nat.eqb]. unfold Rdiv. rewrite Rabs_left by lra. lra.
Qed.
(** It depends on the unit of length: the same profile with all positions halved is recorded not at half the position but at
    a quarter of it. *)
Theorem C149_unit_of_length_refuted : exists w w', derivative_saver true 0 true (slope 1 1) wrec0 = Ok w /\ derivative_saver true 0 true (slope 1 (1 / 2)) wrec0 = Ok w' /\
  r_wave w = [0; 2] /\ r_wave w' = [0; 1 / 2] /\ map (fun p => (fst p / 2, snd p)) (slope 1 1) = slope 1 (1 / 2).
Proof.
  destruct (slope_recorded 0 1 2) as (w & E & W); [lra|lia| |].
  { intros j Hj Nj. cbn in Hj. replace (2 / 1) with 2 by field. index_cases j Hj; try (exfalso; lia); cbn [nth]; abs_calc; (left; lra) || (right; split; [lia|lra]). }
  destruct (slope_recorded 0 (1 / 2) 1) as (w' & E' & W'); [lra|lia| |].
  { intros j Hj Nj. cbn in Hj. replace (2 / (1 / 2)) with 4 by field. index_cases j Hj; try (exfalso; lia); cbn [nth]; abs_calc; (left; lra) || (right; split; [lia|lra]). }
  exists w, w'. split; [exact E|]. split; [exact E'|]. cbn [nth] in W, W'. split; [rewrite W; abs_calc; do 2 f_equal; lra|]. split; [rewrite W'; abs_calc; do 2 f_equal; lra|].
  unfold slope. cbn [map fst snd]. repeat (f_equal; try (f_equal; lra)).
Qed.
Print Assumptions C149_unit_of_length_refuted.
(** It depends on earlier calls: the same profile at the same time is recorded at 2 in a fresh run and at 1 after another
    profile, since nothing stored is ever removed. *)
Theorem C149_latest_profile_only_refuted : exists w1 w2 w3, derivative_saver true 1 true (slope 1 1) wrec0 = Ok w1 /\
  derivative_saver true 0 true (plateau 5 1) wrec0 = Ok w2 /\ derivative_saver true 1 true (slope 1 1) w2 = Ok w3 /\
  r_wave w1 = [0; 2] /\ r_wave w3 = [0; 1; 1].
Proof.
  destruct (slope_recorded 1 1 2) as (w & E & W); [lra|lia| |].
  { intros j Hj Nj. cbn in Hj. replace (2 / 1) with 2 by field. index_cases j Hj; try (exfalso; lia); cbn [nth]; abs_calc; (left; lra) || (right; split; [lia|lra]). }
  exists w. eexists. eexists. split; [exact E|]. split; [apply plateau_recorded|]. split; [|split; [rewrite W; cbn [nth]; abs_calc; do 2 f_equal; lra|]].
  - apply (recorded_is true 1 (slope 1 1) _ 5 1); cbn [stored r_e r_xs wrec0 slope map fst snd app length well_kept].
    + split; cbn; lia.
    + intros i H1 Hi. cbn in Hi. index_cases i Hi; cbn; try lia; lra.
    + lia.
    + split.
      * intros i H1 Hi. cbn in Hi. index_cases i Hi; try (exfalso; lia); unfold quotient; cbn [nth Nat.add]; apply Rabs_le; lra.
      * right. exists 2%nat. unfold quotient; cbn [nth Nat.add length]. split; [lia|]. split; [lia|]. replace ((0 - 5) / (3 * 1 - 2 * 1)) with (-5) by field. abs_calc. lra.
    + intros j Hj Nj. cbn in Hj. index_cases j Hj; try (exfalso; lia); abs_calc; (left; lra) || (right; split; [lia|lra]).
  - cbn [r_wave app nth r_xs stored]. abs_calc. repeat (f_equal; try lra).
Qed.
Print Assumptions C149_latest_profile_only_refuted.
Example C149_example : exists w, saver_run true [(0, false, [(1, 5)]); (0, true, [(2, 5); (3, 0); (4, 0)])] wrec0 = Ok w /\ r_times w = [0; 0] /\ r_wave w = [0; 1] /\ r_xs w = [0; 1; 2; 3; 4].
Proof.
  cbn [saver_run]. rewrite saver_stored. cbn [bind stored wrec0 r_times r_e r_xs r_wave map fst snd app].
  rewrite (recorded_is true 0 [(2, 5); (3, 0); (4, 0)] _ 5 1); cbn [stored r_e r_xs wrec0 slope map fst snd app length well_kept].
  - eexists. split; [reflexivity|]. cbn [r_times r_wave r_xs app nth]. repeat split. rewrite Rabs_R1. reflexivity.
  - split; cbn; lia.
  - intros i H1 Hi. cbn in Hi. index_cases i Hi; cbn; try lia; lra.
  - lia.
  - split.
    + intros i H1 Hi. cbn in Hi. index_cases i Hi; try (exfalso; lia); unfold quotient; cbn [nth Nat.add]; apply Rabs_le; lra.
    + right. exists 2%nat. unfold quotient; cbn [nth Nat.add length]. split; [lia|]. split; [lia|]. replace ((0 - 5) / (3 - 2)) with (-5) by field. abs_calc. lra.
  - intros j Hj Nj. cbn in Hj. index_cases j Hj; try (exfalso; lia); abs_calc; (left; lra) || (right; split; [lia|lra]).
Qed.
