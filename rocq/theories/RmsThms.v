(** Error records and the fits made of them (C153, C154). *)
From Coq Require Import String Ascii DecimalString.
From Verif Require Import Py PyLemmas ConfigModel StoreModel StoreProofs RmsModel RmsProofs.
From Verif Require StoreThms.
From Flocq Require Core.
Open Scope string_scope.
Open Scope R_scope.

(** * C153: error records are filed and found again *)

(** The runs of which records are kept: five times, and one more for coupled problems. *)
Definition kept (t : R) (thermal : Z) : Prop :=
  t = 1 \/ t = 5 \/ t = 10 \/ t = 1.25 \/ t = 0.8333333333333334 \/ (thermal = 1%Z /\ t = 31.6228).

Lemma kept_spec : forall sv, saving_condition sv = true <-> kept (q_tfinal sv) (q_thermal sv).
Proof.
  intros sv. unfold saving_condition, kept. cbn [existsb].
  repeat match goal with |- context [Reqb ?a ?b] => destruct (Reqb_spec a b) end;
  destruct (Z.eqb_spec (q_thermal sv) 1); cbn; split; intros; try reflexivity; try discriminate; intuition lra.
Qed.

Lemma int_R_val : forall x z, (0 <= z)%Z -> IZR z <= x < IZR z + 1 -> int_R x = z.
Proof.
  intros x z Hz [H1 H2]. unfold int_R. pose proof (IZR_le _ _ Hz) as Hz'.
  destruct (Rleb 0 x) eqn:E; [|unfold Rleb in E; destruct (Rle_dec 0 x); [discriminate|lra]].
  unfold Int_part. assert (U : up x = (z + 1)%Z). { symmetry. apply tech_up; rewrite plus_IZR; lra. } rewrite U. lia.
Qed.

(** The text of the folder a kept run is filed under, written out. *)
Definition folder_of (major : string) (t : R) : string :=
  if Reqb t 1 then "t=1" else if Reqb t 5 then "t=5" else if Reqb t 10 then "t=10"
  else if Reqb t 1.25 then (if String.eqb major "cells" then "t=1.25" else "t=1")
  else if Reqb t 0.8333333333333334 then (if String.eqb major "cells" then "t=0.8333333333333334" else "t=0")
  else "t=31".
Lemma folder_cells : forall t th, kept t th -> "t=" ++ time_text t = folder_of "cells" t.
Proof.
  intros t th K. unfold folder_of, time_text.
  destruct K as [K|[K|[K|[K|[K|[_ K]]]]]]; rewrite K;
  repeat match goal with |- context [Reqb ?a ?b] => destruct (Reqb_spec a b) as [?|?]; [try (exfalso; lra)|try (exfalso; lra)] end;
  try reflexivity.
  - rewrite (int_R_val 1 1); [reflexivity|lia|lra].
  - rewrite (int_R_val 5 5); [reflexivity|lia|lra].
  - rewrite (int_R_val 10 10); [reflexivity|lia|lra].
  - rewrite (int_R_val 31.6228 31); [reflexivity|lia|lra].
Qed.
Lemma folder_Ms : forall t th, kept t th -> "t=" ++ str_Z (int_R t) = folder_of "Ms" t.
Proof.
  intros t th K. unfold folder_of.
  destruct K as [K|[K|[K|[K|[K|[_ K]]]]]]; rewrite K;
  repeat match goal with |- context [Reqb ?a ?b] => destruct (Reqb_spec a b) as [?|?]; [try (exfalso; lra)|try (exfalso; lra)] end.
  - rewrite (int_R_val 1 1); [reflexivity|lia|lra].
  - rewrite (int_R_val 5 5); [reflexivity|lia|lra].
  - rewrite (int_R_val 10 10); [reflexivity|lia|lra].
  - rewrite (int_R_val 1.25 1); [reflexivity|lia|lra].
  - rewrite (int_R_val 0.8333333333333334 0); [reflexivity|lia|lra].
  - rewrite (int_R_val 31.6228 31); [reflexivity|lia|lra].
Qed.
Lemma folder_plain : forall major t, plain (folder_of major t).
Proof.
  intros. unfold folder_of. repeat match goal with |- plain (if ?b then _ else _) => destruct b end; (split; [lit|discriminate]).
Qed.
Lemma cells_plain : forall u m M, plain (cells_name u m M).
Proof.
  intros u m M. unfold cells_name. split.
  - rewrite !free_app. destruct u, m; repeat split; try discriminate; try lit; apply str_nat_free; cbn; auto.
  - destruct u; discriminate.
Qed.
Lemma Ms_plain : forall u m, plain (Ms_name u m).
Proof. intros u m. destruct u, m; (split; [lit|discriminate]). Qed.
Lemma source_plain : forall s, In s source_names -> plain s.
Proof. intros s H. cbn in H. repeat destruct H as [<-|H]; try contradiction; (split; [lit|discriminate]). Qed.
Lemma RMS_plain : plain "RMS". Proof. split; [lit|discriminate]. Qed.

Lemma resolve3 : forall a b c, plain a -> plain b -> plain c -> resolve nil (a ++ "/" ++ b ++ "/" ++ c) = [a; b; c].
Proof.
  intros a b c [Fa Na] [Fb Nb] [Fc Nc]. unfold resolve.
  assert (A : absolute (a ++ "/" ++ b ++ "/" ++ c) = false).
  { destruct a as [|x a]; [congruence|]. cbn in *. destruct (Ascii.eqb_spec x "/"); [intuition congruence|reflexivity]. }
  rewrite A, !parts_app, !parts_free by assumption. reflexivity.
Qed.
Lemma resolve4 : forall a b c e, plain a -> plain b -> plain c -> plain e ->
  resolve nil (a ++ "/" ++ b ++ "/" ++ c ++ "/" ++ e) = [a; b; c; e].
Proof.
  intros a b c e [Fa Na] [Fb Nb] [Fc Nc] [Fe Ne]. unfold resolve.
  assert (A : absolute (a ++ "/" ++ b ++ "/" ++ c ++ "/" ++ e) = false).
  { destruct a as [|x a]; [congruence|]. cbn in *. destruct (Ascii.eqb_spec x "/"); [intuition congruence|reflexivity]. }
  rewrite A, !parts_app, !parts_free by assumption. reflexivity.
Qed.

(** The name of a record, written out. *)
Definition record_name (major : string) (uncollided moving : bool) (M : nat) : string :=
  if String.eqb major "cells" then
    match uncollided, moving with
    | true, true => "uncollided_moving_M_" | true, false => "uncollided_static_M_"
    | false, true => "no_uncollided_moving_M_" | false, false => "no_uncollided_static_M_"
    end ++ str_nat M
  else
    match uncollided, moving with
    | true, true => "Ms_uncollided_moving" | true, false => "Ms_uncollided_static"
    | false, true => "Ms_no_uncollided_moving" | false, false => "Ms_no_uncollided_static"
    end.
Lemma record_cells : forall u m M, cells_name u m M = record_name "cells" u m M.
Proof. intros [] [] M; reflexivity. Qed.
Lemma record_Ms : forall u m M, Ms_name u m = record_name "Ms" u m M.
Proof. intros [] [] M; reflexivity. Qed.

(** A study whose lists belong together: one entry for each run. *)
Definition complete (sv : rms_saver) (s : study) : Prop :=
  let n := length (q_spaces sv) in
  length (q_Ms sv) = n /\ length (t_RMS s) = n /\ length (t_energy s) = n /\ length (t_angles s) = n /\ length (t_times s) = n.

(** The rows of a record: the number varied, the errors, the directions, the times, the number held, the errors of the
    energy density, all rounded to single precision. *)
Definition record_rows (sv : rms_saver) (s : study) : list (list R) :=
  map (map f32)
    (if String.eqb (q_major sv) "cells"
     then [map INR (q_spaces sv); t_RMS s; t_angles s; t_times s; map INR (q_Ms sv); t_energy s]
     else [map INR (q_Ms sv); t_RMS s; t_angles s; t_times s; map INR (q_spaces sv); t_energy s]).

(** Where a record of a kept run goes. *)
Definition record_path (sv : rms_saver) (M : nat) : list string :=
  [q_source sv; folder_of (q_major sv) (q_tfinal sv); "RMS"; record_name (q_major sv) (q_uncollided sv) (q_moving sv) M].

Lemma rows_len : forall sv s, complete sv s -> forall r, In r (cells_rows sv s) \/ In r (Ms_rows sv s) -> length r = length (q_spaces sv).
Proof.
  intros sv s (A & B & C & D & E) r [H|H]; cbn in H;
  repeat destruct H as [<-|H]; try contradiction; rewrite ?map_length; auto.
Qed.

(** A complete study of a kept run is written as one record at its place, in a file that exists and holds no dataset
    where a folder is wanted.  An older record at the place is replaced.  Every other dataset of the file and every other
    file is left as it was. *)
Theorem C153_record_written : forall sv s d file f M,
  q_major sv = "cells" \/ q_major sv = "Ms" -> kept (q_tfinal sv) (q_thermal sv) -> In (q_source sv) source_names ->
  complete sv s -> nth_error (q_Ms sv) 0 = Some M -> q_file sv = Some file -> d file = Some f ->
  open_to [q_source sv; folder_of (q_major sv) (q_tfinal sv); "RMS"] f ->
  exists f', save_RMS sv s d = (Ok tt, set_file d file f') /\
    lookup (record_path sv M) f' = Some (Dset (A2 (record_rows sv s))) /\
    (forall q a, (forall r, q <> (record_path sv M ++ r)%list) -> lookup q f = Some (Dset a) -> lookup q f' = Some (Dset a)) /\
    (forall name, name <> file -> set_file d file f' name = d name).
Proof.
  intros sv s d file f M Hm K Hs C HM Hf Hd HO.
  assert (W : exists dest nm rows, save_RMS sv s d = in_file (Some file) (write_record dest (Ok nm) (length (q_spaces sv)) rows) d /\
    resolve nil dest = [q_source sv; folder_of (q_major sv) (q_tfinal sv); "RMS"] /\ plain nm /\
    nm = record_name (q_major sv) (q_uncollided sv) (q_moving sv) M /\ map (map f32) rows = record_rows sv s /\
    length rows = 6%nat /\ (forall r, In r rows -> length r = length (q_spaces sv))).
  { unfold save_RMS. rewrite (proj2 (kept_spec sv) K), Hf. unfold getitem. rewrite HM. cbn [bind].
    destruct Hm as [Hm|Hm]; rewrite Hm; cbn [String.eqb].
    - do 3 eexists. split; [reflexivity|]. split; [|split; [apply cells_plain|split; [apply record_cells|split; [|split; [reflexivity|]]]]].
      + pose proof (folder_cells _ _ K) as Ef.
        replace (q_source sv ++ "/" ++ "t=" ++ time_text (q_tfinal sv) ++ "/" ++ "RMS") with
          (q_source sv ++ "/" ++ ("t=" ++ time_text (q_tfinal sv)) ++ "/" ++ "RMS") by (rewrite app_assoc_s; reflexivity).
        rewrite Ef. apply resolve3; [apply source_plain; exact Hs|apply folder_plain|apply RMS_plain].
      + unfold record_rows. rewrite Hm. reflexivity.
      + intros r Hr. apply (rows_len sv s C). left. exact Hr.
    - change (String.eqb "Ms" "cells") with false. change (String.eqb "Ms" "Ms") with true. cbv iota.
      do 3 eexists. split; [reflexivity|]. split; [|split; [apply Ms_plain|split; [apply record_Ms|split; [|split; [reflexivity|]]]]].
      + pose proof (folder_Ms _ _ K) as Ef.
        replace (q_source sv ++ "/" ++ "t=" ++ str_Z (int_R (q_tfinal sv)) ++ "/" ++ "RMS") with
          (q_source sv ++ "/" ++ ("t=" ++ str_Z (int_R (q_tfinal sv))) ++ "/" ++ "RMS") by (rewrite app_assoc_s; reflexivity).
        rewrite Ef. apply resolve3; [apply source_plain; exact Hs|apply folder_plain|apply RMS_plain].
      + unfold record_rows. rewrite Hm. reflexivity.
      + intros r Hr. apply (rows_len sv s C). right. exact Hr. }
  destruct W as (dest & nm & rows & E & Er & Pn & En & Erows & L6 & Lr).
  destruct (write_effect dest _ nm _ rows f Er ltac:(discriminate) Pn HO L6 Lr) as (f' & H1 & H2 & H3 & H4).
  exists f'. rewrite E. cbn [in_file]. unfold on_file. rewrite Hd, H1. split; [reflexivity|].
  split; [|split].
  - unfold record_path. rewrite <- En. cbn [app] in H2. rewrite H2, Erows. reflexivity.
  - intros q a Nq Lq. rewrite H3; [exact Lq| |].
    + intros r Hr. specialize (HO q r Hr). unfold notD in HO. rewrite Lq in HO. exact HO.
    + intros r Hr. apply (Nq r). rewrite Hr. unfold record_path. rewrite <- En. reflexivity.
  - intros name Nn. unfold set_file. apply String.eqb_neq in Nn. rewrite Nn. reflexivity.
Qed.
Print Assumptions C153_record_written.

(** A run at another time, or a study of another kind, leaves every file as it is. *)
Theorem C153_nothing_else_is_kept : forall sv s d,
  ~ kept (q_tfinal sv) (q_thermal sv) \/ (q_major sv <> "cells" /\ q_major sv <> "Ms") -> save_RMS sv s d = (Ok tt, d).
Proof.
  intros sv s d H. unfold save_RMS.
  destruct (String.eqb_spec (q_major sv) "cells"), (String.eqb_spec (q_major sv) "Ms"); try reflexivity;
  (destruct (saving_condition sv) eqn:E; [|reflexivity]; apply kept_spec in E; destruct H as [H|[H1 H2]]; [destruct (H E)|congruence]).
Qed.
Print Assumptions C153_nothing_else_is_kept.

(** The places read by the plotter for the sources with a material energy, written out. *)
Definition rad_place (source : string) : option (list string * list string) :=
  assoc source
    [("su_olson", (["square_s"], nil)); ("su_olson_energy", (["square_s"], nil));
     ("su_olson_s2", (["square_s"], ["S2"])); ("su_olson_energy_s2", (["square_s"], ["S2"]));
     ("gaussian_s2", (["gaussian_s"], ["S2"])); ("gaussian_energy_s2", (["gaussian_s"], ["S2"]));
     ("gaussian_s_thick_s2", (["gaussian_s_thick"], ["S2"])); ("gaussian_s_thick_s2_energy", (["gaussian_s_thick"], ["S2"]));
     ("gaussian_s_thick_s8", (["gaussian_s_thick"], ["S8"])); ("gaussian_s_thick_s8_energy", (["gaussian_s_thick"], ["S8"]));
     ("su_olson_thick_s2", (["su_olson_thick"], ["S2"])); ("su_olson_thick_s2_energy", (["su_olson_thick"], ["S2"]));
     ("su_olson_thick_s8", (["su_olson_thick"], ["S8"])); ("su_olson_thick_s8_energy", (["su_olson_thick"], ["S8"]))].

(** What a load leaves on the plotter. *)
Definition holds (p p' : plotter) (rows : list (list R)) (energy : bool) : Prop :=
  p_source p' = p_source p /\ p_major p' = p_major p /\ p_M p' = p_M p /\
  p_RMS p' = nth_error rows 1 /\ p_angles p' = nth_error rows 2 /\ p_times p' = nth_error rows 3 /\
  (p_major p = "cells" -> p_cells p' = nth_error rows 0 /\ p_Ms p' = p_Ms p) /\
  (p_major p = "Ms" -> p_Ms p' = nth_error rows 0 /\ p_cells p' = nth_error rows 4) /\
  p_energy p' = (if energy then nth_error rows 5 else p_energy p).

Lemma take_holds : forall p rows e, length rows = 6%nat -> p_major p = "cells" \/ p_major p = "Ms" ->
  (p_major p = "Ms" -> nth_error rows 4 <> Some nil) ->
  exists p', take_rows p (A2 rows) e = Ok p' /\ holds p p' rows e.
Proof.
  intros p rows e L Hm H4. destruct rows as [|r0 [|r1 [|r2 [|r3 [|r4 [|r5 [|]]]]]]]; try discriminate L.
  unfold take_rows, read_row, getitem. cbn [nth_error bind].
  destruct Hm as [Hm|Hm]; rewrite Hm.
  - change (String.eqb "cells" "cells") with true. cbv iota. cbn [bind fst snd].
    destruct e; cbn [bind]; eexists; (split; [reflexivity|]); unfold holds; cbn; rewrite Hm; repeat split; try congruence; discriminate.
  - change (String.eqb "Ms" "cells") with false. change (String.eqb "Ms" "Ms") with true. cbv iota.
    destruct r4 as [|y r4]; [destruct (H4 Hm); reflexivity|]. cbn [nth_error bind fst snd].
    destruct e; cbn [bind]; eexists; (split; [reflexivity|]); unfold holds; cbn; rewrite Hm; repeat split; try congruence; discriminate.
Qed.

Lemma load_name_record : forall p u m, p_major p = "cells" \/ p_major p = "Ms" -> load_name p u m = Ok (record_name (p_major p) u m (p_M p)).
Proof.
  intros p u m [H|H]; unfold load_name; rewrite H.
  - change (String.eqb "cells" "cells") with true. cbv iota. rewrite record_cells. reflexivity.
  - change (String.eqb "Ms" "cells") with false. change (String.eqb "Ms" "Ms") with true. cbv iota. rewrite (record_Ms u m (p_M p)). reflexivity.
Qed.
Lemma record_plain : forall major u m M, major = "cells" \/ major = "Ms" -> plain (record_name major u m M).
Proof.
  intros major u m M [-> | ->]; [rewrite <- record_cells; apply cells_plain|rewrite <- (record_Ms u m M); apply Ms_plain].
Qed.

(** A record of one of the six sources is read from its place in the first file, once that file has a group
    'gaussian_IC'; the errors of the energy density are not read. *)
Theorem C153_record_read : forall pr p u m d f rows,
  In (p_source p) source_names -> p_major p = "cells" \/ p_major p = "Ms" -> free "/" (str_num pr (p_tfinal p)) ->
  d plot_file = Some f -> (exists l, lookup ["gaussian_IC"] f = Some (Group l)) ->
  lookup [p_source p; "t=" ++ str_num pr (p_tfinal p); "RMS"; record_name (p_major p) u m (p_M p)] f = Some (Dset (A2 rows)) ->
  length rows = 6%nat -> (p_major p = "Ms" -> nth_error rows 4 <> Some nil) ->
  exists p', load_RMS_data pr p u m d = Ok p' /\ holds p p' rows false.
Proof.
  intros pr p u m d f rows Hs Hm Ft Hd [l G] L L6 H4. unfold load_RMS_data. rewrite Hd, (load_name_record p u m Hm). cbn [bind].
  assert (Er : one_of (p_source p) rad_sources = false).
  { cbn in Hs. repeat destruct Hs as [<-|Hs]; try contradiction; reflexivity. }
  rewrite Er, G. cbn [bind].
  assert (Ed : load_dest pr p = p_source p ++ "/" ++ ("t=" ++ str_num pr (p_tfinal p)) ++ "/" ++ "RMS").
  { unfold load_dest. cbn in Hs. repeat destruct Hs as [<-|Hs]; try contradiction; reflexivity. }
  rewrite Ed. rewrite !app_assoc_s.
  replace ("t=" ++ str_num pr (p_tfinal p) ++ "/" ++ "RMS" ++ "/" ++ record_name (p_major p) u m (p_M p)) with
    (("t=" ++ str_num pr (p_tfinal p)) ++ "/" ++ "RMS" ++ "/" ++ record_name (p_major p) u m (p_M p)) by (rewrite app_assoc_s; reflexivity).
  unfold read. rewrite resolve4.
  - rewrite L. cbn [bind]. apply take_holds; assumption.
  - apply source_plain; exact Hs.
  - split; [cbn; repeat split; try discriminate; exact Ft|discriminate].
  - apply RMS_plain.
  - apply record_plain; exact Hm.
Qed.
Print Assumptions C153_record_read.

Lemma resolve5 : forall a b c e g, plain a -> plain b -> plain c -> plain e -> plain g ->
  resolve nil (a ++ "/" ++ b ++ "/" ++ c ++ "/" ++ e ++ "/" ++ g) = [a; b; c; e; g].
Proof.
  intros a b c e g [Fa Na] [Fb Nb] [Fc Nc] [Fe Ne] [Fg Ng]. unfold resolve.
  assert (A : absolute (a ++ "/" ++ b ++ "/" ++ c ++ "/" ++ e ++ "/" ++ g) = false).
  { destruct a as [|x a]; [congruence|]. cbn in *. destruct (Ascii.eqb_spec x "/"); [intuition congruence|reflexivity]. }
  rewrite A, !parts_app, !parts_free by assumption. reflexivity.
Qed.

(** A record with a material energy is read from its place in the second file, with the errors of the energy density.
    The first file must exist too. *)
Theorem C153_rad_record_read : forall pr p u m d f g rows head tail,
  rad_place (p_source p) = Some (head, tail) -> p_major p = "cells" \/ p_major p = "Ms" -> free "/" (str_num pr (p_tfinal p)) ->
  d plot_file = Some f -> d plot_file_rad = Some g ->
  lookup (head ++ [("t=" ++ str_num pr (p_tfinal p))%string; "RMS"] ++ tail ++ [record_name (p_major p) u m (p_M p)])%list g
    = Some (Dset (A2 rows)) ->
  length rows = 6%nat -> (p_major p = "Ms" -> nth_error rows 4 <> Some nil) ->
  exists p', load_RMS_data pr p u m d = Ok p' /\ holds p p' rows true.
Proof.
  intros pr p u m d f g rows head tail Hs Hm Ft Hd Hg L L6 H4. unfold load_RMS_data. rewrite Hd, Hg, (load_name_record p u m Hm). cbn [bind].
  set (T := ("t=" ++ str_num pr (p_tfinal p))%string) in *.
  set (N := record_name (p_major p) u m (p_M p)) in *.
  assert (PT : plain T) by (split; [cbn; repeat split; try discriminate; exact Ft|discriminate]).
  assert (PN : plain N) by (apply record_plain; exact Hm).
  assert (E : one_of (p_source p) rad_sources = true /\
              resolve nil (load_dest pr p ++ "/" ++ N) = (head ++ [T; "RMS"] ++ tail ++ [N])%list).
  { unfold rad_place in Hs. unfold load_dest.
    assert (R4 : forall a, plain a -> resolve nil ((a ++ "/" ++ "t=" ++ str_num pr (p_tfinal p) ++ "/" ++ "RMS" ++ "") ++ "/" ++ N) = [a; T; "RMS"; N]).
    { intros a Pa. rewrite <- (resolve4 a T "RMS" N Pa PT RMS_plain PN). unfold T. f_equal. rewrite !app_assoc_s. reflexivity. }
    assert (R5 : forall a b, plain a -> plain b -> resolve nil ((a ++ "/" ++ "t=" ++ str_num pr (p_tfinal p) ++ "/" ++ "RMS" ++ ("/" ++ b)) ++ "/" ++ N) = [a; T; "RMS"; b; N]).
    { intros a b Pa Pb. rewrite <- (resolve5 a T "RMS" b N Pa PT RMS_plain Pb PN). unfold T. f_equal. rewrite !app_assoc_s. reflexivity. }
    assert (P : forall a, In a ["square_s"; "gaussian_s"; "gaussian_s_thick"; "su_olson_thick"; "S2"; "S8"] -> plain a).
    { intros a Ha. cbn in Ha. repeat destruct Ha as [<-|Ha]; try contradiction; (split; [lit|discriminate]). }
    cbn [assoc] in Hs.
    repeat match type of Hs with
           | (if String.eqb ?x ?y then _ else _) = _ => destruct (String.eqb_spec x y) as [Ee|_];
               [rewrite Ee; injection Hs as <- <-; split; [reflexivity|]; first [apply R4; apply P; cbn; tauto | apply R5; apply P; cbn; tauto]|]
           end.
    discriminate. }
  destruct E as [-> E]. unfold read. rewrite E, L. cbn [bind]. apply take_holds; assumption.
Qed.
Print Assumptions C153_rad_record_read.

(** A record that has been written is read back, with all numbers rounded to single precision, by a plotter of the same
    source, kind and order whose time reads like the folder, provided the plotter's file is a copy of the written one. *)
Theorem C153_round_trip : forall pr sv s d file f M p d2,
  q_major sv = "cells" \/ q_major sv = "Ms" -> kept (q_tfinal sv) (q_thermal sv) -> In (q_source sv) source_names ->
  complete sv s -> nth_error (q_Ms sv) 0 = Some M -> q_file sv = Some file -> d file = Some f ->
  open_to [q_source sv; folder_of (q_major sv) (q_tfinal sv); "RMS"] f ->
  p_source p = q_source sv -> p_major p = q_major sv -> p_M p = M ->
  ("t=" ++ str_num pr (p_tfinal p))%string = folder_of (q_major sv) (q_tfinal sv) ->
  d2 plot_file = snd (save_RMS sv s d) file -> (forall g, d2 plot_file = Some g -> exists l, lookup ["gaussian_IC"] g = Some (Group l)) ->
  exists p', load_RMS_data pr p (q_uncollided sv) (q_moving sv) d2 = Ok p' /\ holds p p' (record_rows sv s) false.
Proof.
  intros pr sv s d file f M p d2 Hm K Hs C HM Hf Hd HO Ps Pm PM Pt H2 HG.
  destruct (C153_record_written sv s d file f M Hm K Hs C HM Hf Hd HO) as (f' & E & L & _ & _).
  rewrite E in H2. cbn [snd] in H2. unfold set_file in H2. rewrite String.eqb_refl in H2. specialize (HG f' H2).
  unfold record_path in L. rewrite <- Pt, <- Ps, <- Pm, <- PM in L.
  assert (Hs' : In (p_source p) source_names) by (rewrite Ps; exact Hs).
  assert (Hm' : p_major p = "cells" \/ p_major p = "Ms") by (rewrite Pm; exact Hm).
  assert (Ft : free "/" (str_num pr (p_tfinal p))).
  { destruct (folder_plain (q_major sv) (q_tfinal sv)) as [F _]. rewrite <- Pt in F. apply free_app in F. apply F. }
  assert (L6 : length (record_rows sv s) = 6%nat) by (unfold record_rows; destruct (String.eqb (q_major sv) "cells"); reflexivity).
  assert (H4 : p_major p = "Ms" -> nth_error (record_rows sv s) 4 <> Some nil).
  { intros Q. unfold record_rows. rewrite Pm in Q. rewrite Q. change (String.eqb "Ms" "cells") with false. cbv iota. cbn [map nth_error].
    destruct C as (C & _). destruct (q_spaces sv); [|discriminate]. destruct (q_Ms sv); discriminate. }
  exact (C153_record_read pr p _ _ d2 f' _ Hs' Hm' Ft H2 HG L L6 H4).
Qed.
Print Assumptions C153_round_trip.

(** The contract on python's [str] of a float at the times that occur. *)
Definition python_text (pr : R -> string) : Prop :=
  pr 1 = "1.0" /\ pr 5 = "5.0" /\ pr 10 = "10.0" /\ pr 1.25 = "1.25" /\ pr 0.8333333333333334 = "0.8333333333333334" /\
  pr 31.6228 = "31.6228".
Definition value (n : pynum) : R := match n with PInt z => IZR z | PFloat x => x end.

Lemma no_int : forall z a, IZR z = a -> forall k, IZR k < a < IZR (k + 1) -> False.
Proof. intros z a E k [A B]. rewrite <- E in A, B. apply lt_IZR in A, B. lia. Qed.

(** A plotter given the time of the run, as an integer or as a float, looks in the folder the run was filed under
    exactly when the time is an integer given as such, or is 1.25 or 0.8333333333333334 in a study over cells.  A record
    of the time 31.6228 is never found under its own time, nor is one of 1.25 in a study over orders. *)
Theorem C153_time_found_iff : forall pr major n th, python_text pr -> kept (value n) th -> major = "cells" \/ major = "Ms" ->
  (("t=" ++ str_num pr n)%string = folder_of major (value n) <->
   (exists z, n = PInt z) \/ (major = "cells" /\ (value n = 1.25 \/ value n = 0.8333333333333334))).
Proof.
  intros pr major n th (P1 & P5 & P10 & P125 & P083 & P31) K Hm.
  assert (D : (exists z, n = PInt z /\ (z = 1 \/ z = 5 \/ z = 10)%Z) \/ exists x, n = PFloat x /\ kept x th).
  { destruct n as [z|x]; [left; exists z; split; [reflexivity|]|right; exists x; auto].
    cbn in K. destruct K as [K|[K|[K|[K|[K|[_ K]]]]]].
    - left. apply eq_IZR. exact K. - right; left. apply eq_IZR. exact K. - right; right. apply eq_IZR. exact K.
    - exfalso. apply (no_int _ _ K 1%Z). cbn. lra.
    - exfalso. apply (no_int _ _ K 0%Z). cbn. lra.
    - exfalso. apply (no_int _ _ K 31%Z). cbn. lra. }
  destruct D as [(z & -> & [-> | [-> | ->]])|(x & -> & K')]; cbn [value str_num].
  1-3: split; [intros _; left; eauto|intros _; unfold folder_of;
    repeat match goal with |- context [Reqb ?a ?b] => destruct (Reqb_spec a b) as [?|?]; [try (exfalso; lra)|try (exfalso; lra)] end; reflexivity].
  unfold folder_of. destruct K' as [Q|[Q|[Q|[Q|[Q|[_ Q]]]]]]; rewrite Q in *;
  repeat match goal with |- context [Reqb ?a ?b] => destruct (Reqb_spec a b) as [?|?]; [try (exfalso; lra)|try (exfalso; lra)] end;
  rewrite ?P1, ?P5, ?P10, ?P125, ?P083, ?P31; destruct Hm as [-> | ->];
  (split; [intros H; first [discriminate H | right; split; [reflexivity|tauto]]
          |intros [[z H]|[H1 H2]]; first [discriminate H | discriminate H1 | reflexivity | exfalso; lra]]).
Qed.
Print Assumptions C153_time_found_iff.

(** Studies over orders of runs to 1 and to 1.25 share one record: the later replaces the earlier. *)
Theorem C153_records_of_two_times_refuted : exists sv1 sv2 s1 s2 d d1 d2 f2,
  q_tfinal sv1 <> q_tfinal sv2 /\ kept (q_tfinal sv1) (q_thermal sv1) /\ kept (q_tfinal sv2) (q_thermal sv2) /\
  save_RMS sv1 s1 d = (Ok tt, d1) /\ save_RMS sv2 s2 d1 = (Ok tt, d2) /\
  d2 "moving_mesh_transport/local_run_data/run_data_transport_RMS.h5" = Some f2 /\
  lookup ["MMS"; "t=1"; "RMS"; "Ms_no_uncollided_moving"] f2 = Some (Dset (A2 (record_rows sv2 s2))) /\
  lookup ["MMS"; "t=1.25"] f2 = None /\ record_rows sv1 s1 <> record_rows sv2 s2.
Proof.
  set (sv := fun t => {| q_file := rms_file "transport"; q_source := "MMS"; q_tfinal := t; q_moving := true; q_uncollided := false;
    q_major := "Ms"; q_spaces := [4%nat]; q_Ms := [2%nat]; q_thermal := 0%Z; q_sigma := 1; q_x0 := [1] |}).
  set (st := fun r => {| t_RMS := [r]; t_energy := [0]; t_angles := [8]; t_times := [1] |}).
  set (file := "moving_mesh_transport/local_run_data/run_data_transport_RMS.h5").
  set (d := fun n : string => if String.eqb n file then Some (Group nil) else None : option node).
  assert (HO : open_to ["MMS"; "t=1"; "RMS"] (Group nil)).
  { intros q r _. unfold notD. destruct q; exact I. }
  assert (E0 : folder_of "Ms" 1 = "t=1") by (unfold folder_of; rewrite Reqb_refl; reflexivity).
  assert (E1 : folder_of "Ms" 1.25 = "t=1").
  { unfold folder_of. repeat match goal with |- context [Reqb ?a ?b] => destruct (Reqb_spec a b) as [?|?]; [try (exfalso; lra)|try (exfalso; lra)] end. reflexivity. }
  assert (K1 : kept 1 0) by (left; reflexivity). assert (K2 : kept 1.25 0) by (right; right; right; left; reflexivity).
  destruct (C153_record_written (sv 1) (st 0) d file (Group nil) 2) as (f1 & H1 & L1 & _); cbn; auto 10; try (unfold complete; cbn; auto).
  { rewrite E0. exact HO. }
  (* the file after the first write *)
  assert (W : exists g, save_RMS (sv 1) (st 0) d = (Ok tt, set_file d file (Group [("MMS", Group [("t=1", Group [("RMS", Group [g])])])]))).
  { unfold save_RMS. change (q_major (sv 1)) with "Ms". change (String.eqb "Ms" "cells") with false. change (String.eqb "Ms" "Ms") with true. cbv iota.
    rewrite (proj2 (kept_spec (sv 1)) K1). change (q_file (sv 1)) with (Some file). cbn [in_file]. unfold on_file.
    change (q_tfinal (sv 1)) with 1. rewrite (int_R_val 1 1) by (lia || lra). change (d file) with (Some (Group [])). cbv iota beta.
    eexists. cbn -[f32 set_file]. reflexivity. }
  destruct W as [g W]. rewrite W in H1. assert (F1 : f1 = Group [("MMS", Group [("t=1", Group [("RMS", Group [g])])])]).
  { apply (f_equal (fun x => snd x file)) in H1. cbn [snd] in H1. unfold set_file in H1. rewrite String.eqb_refl in H1. congruence. }
  set (d1 := set_file d file f1).
  assert (Hd1 : d1 file = Some f1) by (unfold d1, set_file; rewrite String.eqb_refl; reflexivity).
  assert (HO1 : open_to ["MMS"; "t=1"; "RMS"] f1).
  { rewrite F1. intros q r E. destruct q as [|a q]; [exact I|]. injection E as <- E. destruct q as [|b q]; [exact I|]. injection E as <- E.
    destruct q as [|c q]; [exact I|]. injection E as <- E. destruct q; [exact I|discriminate]. }
  destruct (C153_record_written (sv 1.25) (st 1) d1 file f1 2) as (f2 & H2 & L2 & _); cbn; auto 10; try (unfold complete; cbn; auto).
  { rewrite E1. exact HO1. }
  exists (sv 1), (sv 1.25), (st 0), (st 1), d, d1, (set_file d1 file f2), f2.
  split; [cbn; lra|]. split; [exact K1|]. split; [exact K2|]. split; [rewrite W, <- F1; reflexivity|]. split; [exact H2|].
  split; [unfold set_file, file; reflexivity|]. split; [|split].
  - unfold record_path in L2. change (q_major (sv 1.25)) with "Ms" in L2. change (q_tfinal (sv 1.25)) with 1.25 in L2. rewrite E1 in L2. exact L2.
  - assert (X : save_RMS (sv 1.25) (st 1) d1 = (Ok tt, set_file d1 file f2)) by exact H2.
    unfold save_RMS in X. change (q_major (sv 1.25)) with "Ms" in X. change (String.eqb "Ms" "cells") with false in X. change (String.eqb "Ms" "Ms") with true in X. cbv iota in X.
    rewrite (proj2 (kept_spec (sv 1.25)) K2) in X. change (q_file (sv 1.25)) with (Some file) in X. cbn [in_file] in X. unfold on_file in X.
    rewrite Hd1 in X. change (q_tfinal (sv 1.25)) with 1.25 in X. rewrite (int_R_val 1.25 1) in X by (lia || lra).
    destruct (write_effect "MMS/t=1/RMS" ["MMS"; "t=1"; "RMS"] "Ms_no_uncollided_moving" 1 (Ms_rows (sv 1.25) (st 1)) f1) as (f3 & W3 & _ & F3 & _); auto.
    { discriminate. } { split; [lit|discriminate]. } { intros r Hr. cbn in Hr. repeat destruct Hr as [<-|Hr]; try contradiction; reflexivity. }
    change (write_record "MMS/t=1/RMS" (Ok "Ms_no_uncollided_moving") 1 (Ms_rows (sv 1.25) (st 1)) f1 = (Ok tt, f3)) in W3.
    match type of X with (let '(r, f') := ?t in _) = _ => change t with (write_record "MMS/t=1/RMS" (Ok "Ms_no_uncollided_moving") 1 (Ms_rows (sv 1.25) (st 1)) f1) in X end.
    rewrite W3 in X. apply (f_equal (fun x => snd x file)) in X. cbn [snd] in X. unfold set_file in X. rewrite String.eqb_refl in X. injection X as <-.
    change (lookup ["MMS"; "t=1.25"] f3 = None). rewrite F3; [rewrite F1; reflexivity| |]; intros r; discriminate.
  - unfold record_rows. cbn. intros E. injection E as E. apply (f_equal (fun x => x)) in E. revert E. apply Rlt_not_eq.
    assert (Z0 : f32 0 = 0) by (apply Flocq.Core.Generic_fmt.round_0; apply Flocq.Core.Generic_fmt.valid_rnd_N).
    assert (Z1 : f32 1 = 1).
    { assert (Q : map f32 [1] = [1]); [|injection Q as Q; exact Q]. apply StoreThms.C56_exact_iff_single. constructor; [|constructor].
      exists 1%Z, 0%Z. split; [cbn; lra|]. split; [reflexivity|lia]. }
    rewrite Z0, Z1. lra.
Qed.
Print Assumptions C153_records_of_two_times_refuted.

(** Nothing the two saving methods do changes what the plotter reads: they write to files of the folder
    local_run_data, it reads files of the folder above. *)
Theorem C153_plotter_reads_other_files : forall pr p u m problem sv s ang d,
  q_file sv = rms_file problem ->
  load_RMS_data pr p u m (snd (save_RMS sv s d)) = load_RMS_data pr p u m d /\
  load_RMS_data pr p u m (snd (save_RMS_P1 sv s ang d)) = load_RMS_data pr p u m d.
Proof.
  intros pr p u m problem sv s ang d Hf.
  assert (K : forall A (x : h5 A), load_RMS_data pr p u m (snd (in_file (q_file sv) x d)) = load_RMS_data pr p u m d).
  { intros A x. rewrite Hf. unfold rms_file, in_file.
    assert (Q : forall n, n <> plot_file -> n <> plot_file_rad -> load_RMS_data pr p u m (snd (on_file n x d)) = load_RMS_data pr p u m d).
    { intros n N1 N2. unfold on_file. destruct (d n) as [f|]; [|reflexivity]. destruct (x f) as [r f']. cbn [snd].
      unfold load_RMS_data, set_file. rewrite (proj2 (String.eqb_neq plot_file n)), (proj2 (String.eqb_neq plot_file_rad n)) by congruence. reflexivity. }
    destruct (String.eqb problem "transport"); [apply Q; discriminate|].
    destruct (existsb _ _); [apply Q; discriminate|reflexivity]. }
  split.
  - unfold save_RMS. destruct (String.eqb (q_major sv) "cells"), (String.eqb (q_major sv) "Ms"), (saving_condition sv); try reflexivity; apply K.
  - unfold save_RMS_P1. destruct (P1_source sv); [|reflexivity]. cbv zeta.
    destruct (String.eqb (q_major sv) "cells"), (String.eqb (q_major sv) "Ms"); try reflexivity; apply K.
Qed.
Print Assumptions C153_plotter_reads_other_files.

(** So a plotter does not find a record that has just been written. *)
Theorem C153_new_record_is_plotted_refuted : exists sv s d d' p f,
  save_RMS sv s d = (Ok tt, d') /\ d plot_file = Some f /\ (exists l, lookup ["gaussian_IC"] f = Some (Group l)) /\
  p_source p = q_source sv /\ p_major p = q_major sv /\ nth_error (q_Ms sv) 0 = Some (p_M p) /\ value (p_tfinal p) = q_tfinal sv /\
  forall pr, load_RMS_data pr p (q_uncollided sv) (q_moving sv) d' = Err KeyError.
Proof.
  set (sv := {| q_file := rms_file "transport"; q_source := "MMS"; q_tfinal := 1; q_moving := true; q_uncollided := false;
    q_major := "Ms"; q_spaces := [4%nat]; q_Ms := [2%nat]; q_thermal := 0%Z; q_sigma := 1; q_x0 := [1] |}).
  set (st := {| t_RMS := [1]; t_energy := [0]; t_angles := [8]; t_times := [1] |}).
  set (file := "moving_mesh_transport/local_run_data/run_data_transport_RMS.h5").
  set (d := fun n : string => if String.eqb n file then Some (Group nil) else if String.eqb n plot_file then Some (Group [("gaussian_IC", Group nil)]) else None : option node).
  destruct (C153_record_written sv st d file (Group nil) 2) as (f1 & H1 & _); cbn; auto 10; try (unfold complete, kept; cbn; auto).
  { intros q r _. destruct q; exact I. }
  exists sv, st, d, (set_file d file f1), (rms_plotter (PInt 1) 2 "MMS" "Ms"), (Group [("gaussian_IC", Group nil)]).
  split; [exact H1|]. split; [reflexivity|]. split; [eexists; reflexivity|]. repeat split.
Qed.
Print Assumptions C153_new_record_is_plotted_refuted.

(** The source a record with two or more directions is filed under, and where. *)
Definition P1_name (sigma x0 : R) (source : string) : string :=
  if Rleb 300 sigma && Rltb sigma 301 then "gaussian_s_thick" else if Reqb x0 400 then "su_olson_thick" else source.
Definition P1_path (sv : rms_saver) (x0 : R) (ang M : nat) (t : Z) : list string :=
  [P1_name (q_sigma sv) x0 (q_source sv); "t=" ++ str_Z t; "RMS"; "S" ++ str_nat ang;
   record_name (q_major sv) (q_uncollided sv) (q_moving sv) M].

Lemma int_300 : forall x, 0 <= x -> (int_R x =? 300)%Z = Rleb 300 x && Rltb x 301.
Proof.
  intros x Hx. unfold int_R. rewrite (Rleb_true 0 x Hx).
  destruct (base_Int_part x) as [A B]. unfold Rleb, Rltb. destruct (Z.eqb_spec (Int_part x) 300) as [E|N].
  - rewrite E in *. destruct (Rle_dec 300 x); [|lra]. destruct (Rlt_dec x 301); [reflexivity|lra].
  - destruct (Rle_dec 300 x) as [H1|]; [|reflexivity]. destruct (Rlt_dec x 301) as [H2|]; [|reflexivity]. destruct N.
    assert (Q1 : (Int_part x < 301)%Z) by (apply lt_IZR; lra).
    assert (Q2 : (299 < Int_part x)%Z) by (apply lt_IZR; lra). lia.
Qed.
Lemma str_Z_plain : forall z, free "/" (str_Z z).
Proof.
  intros z. unfold str_Z. destruct (Z.to_int z) as [d|d]; cbn.
  - apply uint_free; cbn; auto.
  - split; [discriminate|apply uint_free; cbn; auto].
Qed.

(** The record of a study with few directions: any time is kept, under its whole part, below the number of directions. *)
Theorem C153_P1_record_written : forall sv s ang d file f M x0 t,
  q_major sv = "cells" \/ q_major sv = "Ms" -> In (q_source sv) source_names ->
  complete sv s -> nth_error (q_Ms sv) 0 = Some M -> nth_error (q_x0 sv) 0 = Some x0 -> 0 <= q_sigma sv ->
  (0 <= t)%Z -> IZR t <= q_tfinal sv < IZR t + 1 -> q_file sv = Some file -> d file = Some f ->
  open_to [P1_name (q_sigma sv) x0 (q_source sv); "t=" ++ str_Z t; "RMS"; "S" ++ str_nat ang] f ->
  exists f', save_RMS_P1 sv s ang d = (Ok tt, set_file d file f') /\
    lookup (P1_path sv x0 ang M t) f' = Some (Dset (A2 (record_rows sv s))) /\
    (forall q a, (forall r, q <> (P1_path sv x0 ang M t ++ r)%list) -> lookup q f = Some (Dset a) -> lookup q f' = Some (Dset a)).
Proof.
  intros sv s ang d file f M x0 t Hm Hs C HM Hx Hsig Ht Ht' Hf Hd HO.
  set (src := P1_name (q_sigma sv) x0 (q_source sv)) in *.
  assert (Es : P1_source sv = Ok src).
  { unfold P1_source, src, P1_name. rewrite (int_300 _ Hsig). destruct (Rleb 300 (q_sigma sv) && Rltb (q_sigma sv) 301); [reflexivity|].
    unfold getitem. rewrite Hx. reflexivity. }
  assert (Psrc : plain src).
  { unfold src, P1_name. destruct (Rleb 300 (q_sigma sv) && Rltb (q_sigma sv) 301); [split; [lit|discriminate]|].
    destruct (Reqb x0 400); [split; [lit|discriminate]|apply source_plain; exact Hs]. }
  assert (PT : plain ("t=" ++ str_Z t)) by (split; [cbn; repeat split; try discriminate; apply str_Z_plain|discriminate]).
  assert (PA : plain ("S" ++ str_nat ang)) by (split; [cbn; repeat split; try discriminate; apply str_nat_free; cbn; auto|discriminate]).
  pose proof (resolve4 src ("t=" ++ str_Z t) "RMS" ("S" ++ str_nat ang) Psrc PT RMS_plain PA) as Er.
  assert (W : exists nm rows, save_RMS_P1 sv s ang d =
      in_file (Some file) (write_record (src ++ "/" ++ ("t=" ++ str_Z t) ++ "/" ++ "RMS" ++ "/" ++ ("S" ++ str_nat ang)) (Ok nm) (length (q_spaces sv)) rows) d /\
    plain nm /\ nm = record_name (q_major sv) (q_uncollided sv) (q_moving sv) M /\ map (map f32) rows = record_rows sv s /\
    length rows = 6%nat /\ (forall r, In r rows -> length r = length (q_spaces sv))).
  { unfold save_RMS_P1. rewrite Es, Hf, (int_R_val _ _ Ht Ht'). unfold getitem. rewrite HM. cbn [bind].
    rewrite (app_assoc_s "t=" (str_Z t)).
    destruct Hm as [Hm|Hm]; rewrite Hm.
    - change (String.eqb "cells" "cells") with true. cbv iota zeta.
      do 2 eexists. split; [reflexivity|]. split; [apply cells_plain|split; [apply record_cells|split; [|split; [reflexivity|]]]].
      + unfold record_rows. rewrite Hm. reflexivity.
      + intros r Hr. apply (rows_len sv s C). left. exact Hr.
    - change (String.eqb "Ms" "cells") with false. change (String.eqb "Ms" "Ms") with true. cbv iota zeta.
      do 2 eexists. split; [reflexivity|]. split; [apply Ms_plain|split; [apply record_Ms|split; [|split; [reflexivity|]]]].
      + unfold record_rows. rewrite Hm. reflexivity.
      + intros r Hr. apply (rows_len sv s C). right. exact Hr. }
  destruct W as (nm & rows & E & Pn & En & Erows & L6 & Lr).
  destruct (write_effect _ _ nm _ rows f Er ltac:(discriminate) Pn HO L6 Lr) as (f' & H1 & H2 & H3 & H4).
  exists f'. rewrite E. cbn [in_file]. unfold on_file. rewrite Hd, H1. split; [reflexivity|]. cbn [app] in H2.
  split.
  - unfold P1_path. fold src. rewrite <- En, H2, Erows. reflexivity.
  - intros q a Nq Lq. rewrite H3; [exact Lq| |].
    + intros r Hr. specialize (HO q r Hr). unfold notD in HO. rewrite Lq in HO. exact HO.
    + intros r Hr. apply (Nq r). rewrite Hr. unfold P1_path. fold src. rewrite <- En. reflexivity.
Qed.
Print Assumptions C153_P1_record_written.

(** The plotter knows six places of such records; a record with another number of directions is read under no name. *)
Theorem C153_P1_record_has_a_reader_iff : forall source ang,
  (exists name, rad_place name = Some ([source], [("S" ++ str_nat ang)%string])) <->
  In (source, ang) [("square_s", 2%nat); ("gaussian_s", 2%nat); ("gaussian_s_thick", 2%nat); ("gaussian_s_thick", 8%nat);
                    ("su_olson_thick", 2%nat); ("su_olson_thick", 8%nat)].
Proof.
  intros source ang. split.
  - intros [name H]. unfold rad_place in H. cbn [assoc] in H.
    assert (Q : forall x n, Some ([x], [("S" ++ str_nat n)%string]) = Some ([source], [("S" ++ str_nat ang)%string]) -> (source, ang) = (x, n)).
    { intros x n E.
      assert (E1 : [x] = [source]) by exact (f_equal (fun o => match o with Some (a, _) => a | None => nil end) E).
      assert (E2 : str_nat n = str_nat ang) by
        exact (f_equal (fun o : option (list string * list string) => match o with Some (_, [String _ a]) => a | _ => "" end) E).
      apply str_nat_inj in E2. congruence. }
    repeat match type of H with
           | (if String.eqb ?x ?y then _ else _) = _ => destruct (String.eqb x y);
               [first [discriminate H | rewrite (Q _ 2%nat H); cbn; tauto | rewrite (Q _ 8%nat H); cbn; tauto]|]
           end.
    discriminate.
  - intros H. cbn in H. repeat destruct H as [H|H]; try contradiction; injection H as <- <-;
    [exists "su_olson_s2"|exists "gaussian_s2"|exists "gaussian_s_thick_s2"|exists "gaussian_s_thick_s8"|exists "su_olson_thick_s2"|exists "su_olson_thick_s8"]; reflexivity.
Qed.
Print Assumptions C153_P1_record_has_a_reader_iff.

(** The script that makes the empty files makes them under names no other code opens, and cannot be run twice. *)
Theorem C153_framework : forall d, d "run_data_RMS.h5" = None -> d "run_data_radiative_transfer_RMS.h5" = None ->
  exists d1, make_RMS_file d = (Ok tt, d1) /\ fst (make_RMS_file d1) = Err ValueError /\
    (forall problem n, rms_file problem = Some n -> d1 n = d n) /\ d1 plot_file = d plot_file /\ d1 plot_file_rad = d plot_file_rad.
Proof.
  intros d H1 H2. unfold make_RMS_file at 1. unfold append_file. rewrite H1.
  set (r1 := make_groups framework (Group nil)). vm_compute in r1. subst r1. cbv iota beta.
  change (set_file d "run_data_RMS.h5" ?f "run_data_radiative_transfer_RMS.h5") with (d "run_data_radiative_transfer_RMS.h5").
  rewrite H2. set (r2 := make_groups framework_rad (Group nil)). vm_compute in r2. subst r2. cbv iota beta.
  eexists. split; [reflexivity|]. split; [|split; [|split; reflexivity]].
  - unfold make_RMS_file, append_file. reflexivity.
  - intros problem n Hn. unfold rms_file in Hn. destruct (String.eqb problem "transport"); [injection Hn as <-; reflexivity|].
    destruct (existsb _ _); [injection Hn as <-; reflexivity|discriminate].
Qed.
Print Assumptions C153_framework.

(** The groups it makes: in one file a place for each of six sources at three times, in the other one for a source, four
    times and two directions; and nothing else at that depth. *)
Theorem C153_framework_groups : forall d, d "run_data_RMS.h5" = None -> d "run_data_radiative_transfer_RMS.h5" = None ->
  exists d1 f g, make_RMS_file d = (Ok tt, d1) /\ d1 "run_data_RMS.h5" = Some f /\ d1 "run_data_radiative_transfer_RMS.h5" = Some g /\
    (forall source time place, lookup [source; time; place] f = Some (Group nil) <->
       In source ["plane_IC"; "square_IC"; "square_s"; "gaussian_IC"; "gaussian_s"; "MMS"] /\ In time ["t=1"; "t=5"; "t=10"] /\ place = "RMS") /\
    (forall source time place sn, lookup [source; time; place; sn] g = Some (Group nil) <->
       source = "gaussian_s" /\ In time ["t=1"; "t=5"; "t=10"; "t=31.6228"] /\ place = "RMS" /\ sn = "S2") /\
    (forall p a, lookup p f <> Some (Dset a)) /\ (forall p a, lookup p g <> Some (Dset a)).
Proof.
  intros d H1 H2. unfold make_RMS_file, append_file. rewrite H1.
  set (r1 := make_groups framework (Group nil)). vm_compute in r1. subst r1. cbv iota beta.
  change (set_file d "run_data_RMS.h5" ?f "run_data_radiative_transfer_RMS.h5") with (d "run_data_radiative_transfer_RMS.h5").
  rewrite H2. set (r2 := make_groups framework_rad (Group nil)). vm_compute in r2. subst r2. cbv iota beta.
  eexists. eexists. eexists. split; [reflexivity|]. split; [reflexivity|]. split; [reflexivity|]. split; [|split; [|split]].
  - intros source time place. cbn [lookup assoc]. split.
    + intros H. repeat match type of H with context [String.eqb ?a ?b] => destruct (String.eqb_spec a b); [subst|]; cbv iota beta in H; cbn [lookup assoc] in H; try discriminate H end; cbn; auto 12.
    + intros (Hs & Ht & ->). cbn in Hs, Ht. repeat destruct Hs as [<-|Hs]; try contradiction; repeat destruct Ht as [<-|Ht]; try contradiction; reflexivity.
  - intros source time place sn. cbn [lookup assoc]. split.
    + intros H. repeat match type of H with context [String.eqb ?a ?b] => destruct (String.eqb_spec a b); [subst|]; cbv iota beta in H; cbn [lookup assoc] in H; try discriminate H end; cbn; auto 12.
    + intros (-> & Ht & -> & ->). cbn in Ht. repeat destruct Ht as [<-|Ht]; try contradiction; reflexivity.
  - intros p a H. do 4 (destruct p as [|? p]; cbn [lookup assoc] in H; try discriminate H; repeat match type of H with context [String.eqb ?a ?b] => destruct (String.eqb a b); cbv iota beta in H; cbn [lookup assoc] in H; try discriminate H end).
  - intros p a H. do 5 (destruct p as [|? p]; cbn [lookup assoc] in H; try discriminate H; repeat match type of H with context [String.eqb ?a ?b] => destruct (String.eqb a b); cbv iota beta in H; cbn [lookup assoc] in H; try discriminate H end).
Qed.
Print Assumptions C153_framework_groups.

(** the constructor keeps the settings it is given, under their own names *)
Theorem C153_constructor : forall tfinal spaces Ms st moving unc major th sigma x0 problem sv,
  rms_init tfinal spaces Ms st moving unc major th sigma x0 problem = Ok sv ->
  q_tfinal sv = tfinal /\ q_spaces sv = spaces /\ q_Ms sv = Ms /\ q_moving sv = moving /\ q_uncollided sv = unc /\ q_major sv = major /\ q_thermal sv = th /\
  q_sigma sv = sigma /\ q_x0 sv = x0 /\ source_name_of st = Ok (q_source sv) /\
  (problem = "transport" -> q_file sv = Some "moving_mesh_transport/local_run_data/run_data_transport_RMS.h5").
Proof.
  intros tfinal spaces Ms st moving unc major th sigma x0 problem sv H. unfold rms_init in H. destruct (source_name_of st) as [name|]; [|discriminate]. injection H as <-.
  repeat split. intros ->. reflexivity.
Qed.
Print Assumptions C153_constructor.
(** A study of two meshes, written and read back from a copy of the file. *)
Example C153_example : exists pr sv s d d2 p',
  python_text pr /\ save_RMS sv s d = (Ok tt, snd (save_RMS sv s d)) /\ q_tfinal sv = 5 /\
  d2 plot_file = snd (save_RMS sv s d) "moving_mesh_transport/local_run_data/run_data_transport_RMS.h5" /\
  load_RMS_data pr (rms_plotter (PInt 5) 2 "square_s" "cells") true true d2 = Ok p' /\
  p_cells p' = Some (map f32 [INR 4; INR 8]) /\ p_RMS p' = Some (map f32 [1 / 16; 1 / 128]) /\ p_energy p' = None.
Proof.
  set (file := "moving_mesh_transport/local_run_data/run_data_transport_RMS.h5").
  set (pr := fun x : R => if Reqb x 1 then "1.0" else if Reqb x 5 then "5.0" else if Reqb x 10 then "10.0"
    else if Reqb x 1.25 then "1.25" else if Reqb x 0.8333333333333334 then "0.8333333333333334" else "31.6228").
  set (sv := {| q_file := Some file; q_source := "square_s"; q_tfinal := 5; q_moving := true; q_uncollided := true;
    q_major := "cells"; q_spaces := [4; 8]%nat; q_Ms := [2; 2]%nat; q_thermal := 0%Z; q_sigma := 1; q_x0 := [1] |}).
  set (s := {| t_RMS := [1 / 16; 1 / 128]; t_energy := [0; 0]; t_angles := [8; 8]; t_times := [1; 2] |}).
  set (d := fun n : string => if String.eqb n file then Some (Group [("gaussian_IC", Group nil)]) else None : option node).
  set (d2 := fun n : string => if String.eqb n plot_file then snd (save_RMS sv s d) file else None).
  assert (Ef : folder_of "cells" 5 = "t=5").
  { unfold folder_of. destruct (Reqb_spec 5 1); [lra|]. rewrite Reqb_refl. reflexivity. }
  assert (HO : open_to ["square_s"; "t=5"; "RMS"] (Group [("gaussian_IC", Group nil)])).
  { intros q r E. destruct q as [|a q]; [exact I|]. injection E as <- _. exact I. }
  destruct (C153_record_written sv s d file (Group [("gaussian_IC", Group nil)]) 2) as (f1 & H1 & _); cbn; auto 10; try (unfold complete, kept; cbn; auto).
  { rewrite Ef. exact HO. }
  assert (HG : forall g, d2 plot_file = Some g -> exists l, lookup ["gaussian_IC"] g = Some (Group l)).
  { intros g Hg. unfold d2 in Hg. rewrite String.eqb_refl in Hg.
    destruct (C153_record_written sv s d file (Group [("gaussian_IC", Group nil)]) 2) as (f2 & H2 & _); cbn; auto 10; try (unfold complete, kept; cbn; auto).
    { rewrite Ef. exact HO. }
    assert (X := H2). unfold save_RMS in X. rewrite (proj2 (kept_spec sv)) in X by (unfold kept; cbn; auto).
    change (q_major sv) with "cells" in X. change (String.eqb "cells" "cells") with true in X. cbv iota in X. cbn [in_file q_file sv] in X.
    unfold on_file in X. change (d file) with (Some (Group [("gaussian_IC", Group nil)])) in X. cbv iota beta in X.
    assert (Et : time_text 5 = "5").
    { pose proof (folder_cells 5 0) as Q. rewrite Ef in Q. assert (Q' : "t=" ++ time_text 5 = "t=5") by (apply Q; unfold kept; auto). injection Q' as Q'. exact Q'. }
    change (q_tfinal sv) with 5 in X. rewrite Et in X.
    destruct (write_effect "square_s/t=5/RMS" ["square_s"; "t=5"; "RMS"] "uncollided_moving_M_2" 2 (cells_rows sv s) (Group [("gaussian_IC", Group nil)])) as (f3 & W3 & _ & F3 & _); auto.
    { discriminate. } { split; [lit|discriminate]. } { intros r Hr. cbn in Hr. repeat destruct Hr as [<-|Hr]; try contradiction; reflexivity. }
    match type of X with (let '(r, f') := ?t in _) = _ => change t with (write_record "square_s/t=5/RMS" (Ok "uncollided_moving_M_2") 2 (cells_rows sv s) (Group [("gaussian_IC", Group nil)])) in X end.
    rewrite W3 in X. rewrite H2 in Hg. rewrite <- X in Hg. cbn [snd] in Hg. unfold set_file in Hg. rewrite String.eqb_refl in Hg. injection Hg as <-.
    exists nil. change (lookup ["gaussian_IC"] f3 = Some (Group [])). rewrite F3; [reflexivity| |]; intros r; discriminate. }
  destruct (C153_round_trip pr sv s d file (Group [("gaussian_IC", Group nil)]) 2 (rms_plotter (PInt 5) 2 "square_s" "cells") d2) as (p' & H2 & Hh);
    cbn; auto 10; try (unfold complete, kept; cbn; auto).
  { rewrite Ef. exact HO. }
  exists pr, sv, s, d, d2, p'.
  split; [unfold python_text, pr; repeat split;
    repeat match goal with |- context [Reqb ?a ?b] => destruct (Reqb_spec a b) as [?|?]; [try (exfalso; lra)|try (exfalso; lra)] end; reflexivity|].
  split; [rewrite H1; reflexivity|]. split; [reflexivity|]. split; [reflexivity|]. split; [exact H2|].
  destruct Hh as (_ & _ & _ & A & _ & _ & B & _ & E). destruct (B eq_refl) as [B1 _]. rewrite A, B1, E. repeat split.
Qed.
