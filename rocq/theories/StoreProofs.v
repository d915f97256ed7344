(** Lemmas about the HDF5 tree and the text of keys. *)
From Coq Require Import String Ascii DecimalString DecimalNat.
From Verif Require Import Py PyLemmas ConfigModel StoreModel.
Open Scope string_scope.
Open Scope R_scope.

(** * Paths that part *)

Inductive apart : list string -> list string -> Prop :=
| apart_head : forall s t p q, s <> t -> apart (s :: p) (t :: q)
| apart_tail : forall s p q, apart p q -> apart (s :: p) (s :: q).

Lemma apart_sym : forall p q, apart p q -> apart q p.
Proof. induction 1; [apply apart_head; congruence|apply apart_tail; assumption]. Qed.

Lemma assoc_update_same : forall s (m m0 : node) l, assoc s l = Some m0 -> assoc s (update s m l) = Some m.
Proof.
  intros s m m0 l. induction l as [|[k v] l IH]; cbn; [discriminate|].
  destruct (String.eqb_spec s k) as [->|N]; cbn; [rewrite String.eqb_refl; reflexivity|].
  destruct (String.eqb_spec s k); [congruence|]. exact IH.
Qed.
Lemma assoc_update_other : forall s t (m : node) l, s <> t -> assoc t (update s m l) = assoc t l.
Proof.
  intros s t m l N. induction l as [|[k v] l IH]; cbn; [reflexivity|].
  destruct (String.eqb_spec s k) as [->|N']; cbn.
  - destruct (String.eqb_spec t k); [congruence|reflexivity].
  - destruct (String.eqb t k); [reflexivity|exact IH].
Qed.
Lemma assoc_drop_same : forall s l, assoc s (drop s l) = None.
Proof.
  intros s l. induction l as [|[k v] l IH]; cbn; [reflexivity|].
  destruct (String.eqb_spec s k) as [->|N]; cbn; [exact IH|].
  destruct (String.eqb_spec s k); [congruence|exact IH].
Qed.
Lemma assoc_drop_other : forall s t l, s <> t -> assoc t (drop s l) = assoc t l.
Proof.
  intros s t l N. induction l as [|[k v] l IH]; cbn; [reflexivity|].
  destruct (String.eqb_spec s k) as [->|N']; cbn.
  - destruct (String.eqb_spec t k); [congruence|exact IH].
  - destruct (String.eqb t k); [reflexivity|exact IH].
Qed.
Lemma assoc_update_none : forall s t (m : node) l, assoc t l = None -> assoc t (update s m l) = None.
Proof.
  intros s t m l. induction l as [|[k v] l IH]; cbn; [reflexivity|].
  destruct (String.eqb_spec t k) as [->|N]; [discriminate|]. intros H.
  destruct (String.eqb s k); cbn; destruct (String.eqb_spec t k); congruence || auto.
Qed.

(** * The three ways to change a file *)

Lemma fresh_lookup : forall p v q, lookup (p ++ q) (fresh p v) = lookup q v.
Proof. induction p as [|s p IH]; intros v q; cbn; [reflexivity|]. rewrite String.eqb_refl. apply IH. Qed.
Lemma fresh_apart : forall p q v, apart p q -> lookup q (fresh p v) = None.
Proof.
  intros p q v H. induction H as [s t p q N|s p q H IH]; cbn.
  - destruct (String.eqb_spec t s); [congruence|reflexivity].
  - rewrite String.eqb_refl. exact IH.
Qed.

Lemma put_same : forall p v f f' q, put p v f = Ok f' -> lookup (p ++ q) f' = lookup q v.
Proof.
  induction p as [|s p IH]; intros v f f' q H; cbn in H; [discriminate|].
  destruct f as [l|]; [|discriminate]. destruct (assoc s l) as [m|] eqn:E.
  - destruct (put p v m) as [m'|] eqn:P; [|discriminate]. cbn in H. injection H as <-. cbn.
    rewrite (assoc_update_same _ _ _ _ E). eapply IH. exact P.
  - injection H as <-. cbn. rewrite String.eqb_refl. apply fresh_lookup.
Qed.
Lemma put_apart : forall p v f f' q, put p v f = Ok f' -> apart p q -> lookup q f' = lookup q f.
Proof.
  induction p as [|s p IH]; intros v f f' q H A; [discriminate|].
  cbn in H. destruct f as [l|]; [|discriminate].
  inversion A as [s0 t p0 q0 N|s0 p0 q0 A']; subst.
  - destruct (assoc s l) as [m|] eqn:E.
    + destruct (put p v m) as [m'|]; [|discriminate]. cbn in H. injection H as <-. cbn.
      rewrite assoc_update_other by exact N. reflexivity.
    + injection H as <-. cbn. destruct (String.eqb_spec t s); [congruence|reflexivity].
  - destruct (assoc s l) as [m|] eqn:E.
    + destruct (put p v m) as [m'|] eqn:P; [|discriminate]. cbn in H. injection H as <-. cbn.
      rewrite (assoc_update_same _ _ _ _ E), E. eapply IH; eassumption.
    + injection H as <-. cbn. rewrite String.eqb_refl, E. apply fresh_apart. exact A'.
Qed.
Lemma put_new : forall p v f f', put p v f = Ok f' -> lookup p f = None.
Proof.
  induction p as [|s p IH]; intros v f f' H; cbn in H; [discriminate|].
  destruct f as [l|]; [|discriminate]. cbn. destruct (assoc s l) as [m|] eqn:E; [|reflexivity].
  destruct (put p v m) as [m'|] eqn:P; [|discriminate]. eapply IH. exact P.
Qed.
Lemma put_prefix : forall p v f f' q t r, put p v f = Ok f' -> p = (q ++ t :: r)%list ->
  exists l, lookup q f' = Some (Group l).
Proof.
  induction p as [|s p IH]; intros v f f' q t r H E; [discriminate|].
  cbn in H. destruct f as [l|]; [|discriminate].
  destruct q as [|s' q]; cbn in E.
  - destruct (assoc s l) as [m|].
    + destruct (put p v m); [|discriminate]. cbn in H. injection H as <-. eexists. reflexivity.
    + injection H as <-. eexists. reflexivity.
  - injection E as <- E. destruct (assoc s l) as [m|] eqn:A.
    + destruct (put p v m) as [m'|] eqn:P; [|discriminate]. cbn in H. injection H as <-. cbn.
      rewrite (assoc_update_same _ _ _ _ A). eapply IH; [exact P|exact E].
    + injection H as <-. cbn. rewrite String.eqb_refl. subst p. clear. induction q as [|s' q IH]; cbn.
      * eexists. reflexivity.
      * rewrite String.eqb_refl. exact IH.
Qed.
(** No dataset stands in the way. *)
Definition notD (f : node) (q : list string) : Prop := match lookup q f with Some (Dset _) => False | _ => True end.
Lemma put_ok : forall p v f, p <> nil -> lookup p f = None ->
  (forall q t r, p = (q ++ t :: r)%list -> notD f q) -> exists f', put p v f = Ok f'.
Proof.
  induction p as [|s p IH]; intros v f Np Hn Hd; [congruence|]. cbn.
  destruct f as [l|a]; [|exfalso; exact (Hd nil s p eq_refl)].
  cbn in Hn. destruct (assoc s l) as [m|] eqn:E; [|eexists; reflexivity].
  destruct p as [|t p]; [discriminate|].
  destruct (IH v m) as [m' P]; [discriminate|exact Hn| |].
  - intros q t' r Eq. specialize (Hd (s :: q) t' r ltac:(cbn; rewrite Eq; reflexivity)). unfold notD in *. cbn in Hd.
    rewrite E in Hd. exact Hd.
  - rewrite P. cbn. eexists. reflexivity.
Qed.

Lemma remove_same : forall p f f' q, remove p f = Ok f' -> lookup (p ++ q) f' = None.
Proof.
  induction p as [|s p IH]; intros f f' q H; cbn in H; [discriminate|].
  destruct f as [l|]; [|discriminate]. destruct (assoc s l) as [m|] eqn:E; [|discriminate].
  destruct p as [|t p].
  - injection H as <-. cbn. rewrite assoc_drop_same. reflexivity.
  - destruct (remove (t :: p) m) as [m'|] eqn:P; [|discriminate]. cbn [bind] in H. injection H as <-.
    cbn [app lookup]. rewrite (assoc_update_same _ _ _ _ E). exact (IH _ _ q P).
Qed.
Lemma remove_apart : forall p f f' q, remove p f = Ok f' -> apart p q -> lookup q f' = lookup q f.
Proof.
  induction p as [|s p IH]; intros f f' q H A; [discriminate|].
  cbn in H. destruct f as [l|]; [|discriminate]. destruct (assoc s l) as [m|] eqn:E; [|discriminate].
  inversion A as [s0 t p0 q0 N|s0 p0 q0 A']; subst.
  - destruct p as [|t' p].
    + injection H as <-. cbn. rewrite assoc_drop_other by exact N. reflexivity.
    + destruct (remove (t' :: p) m) as [m'|]; [|discriminate]. cbn [bind] in H. injection H as <-. cbn.
      rewrite assoc_update_other by exact N. reflexivity.
  - destruct p as [|t' p]; [inversion A'|].
    destruct (remove (t' :: p) m) as [m'|] eqn:P; [|discriminate]. cbn [bind] in H. injection H as <-. cbn [lookup].
    rewrite (assoc_update_same _ _ _ _ E), E. exact (IH _ _ _ P A').
Qed.
Lemma remove_prefix : forall p f f' q t r, remove p f = Ok f' -> p = (q ++ t :: r)%list ->
  exists l, lookup q f' = Some (Group l).
Proof.
  induction p as [|s p IH]; intros f f' q t r H E; [discriminate|].
  cbn in H. destruct f as [l|]; [|discriminate]. destruct (assoc s l) as [m|] eqn:A; [|discriminate].
  destruct q as [|s' q]; cbn in E.
  - destruct p as [|t' p]; [injection H as <-; eexists; reflexivity|].
    destruct (remove (t' :: p) m); [|discriminate]. cbn [bind] in H. injection H as <-. eexists. reflexivity.
  - injection E as <- E. destruct p as [|t' p]; [destruct q; discriminate|].
    destruct (remove (t' :: p) m) as [m'|] eqn:P; [|discriminate]. cbn [bind] in H. injection H as <-. cbn [lookup].
    rewrite (assoc_update_same _ _ _ _ A). exact (IH _ _ _ _ _ P E).
Qed.
Lemma remove_ok : forall p f, p <> nil -> lookup p f <> None -> exists f', remove p f = Ok f'.
Proof.
  induction p as [|s p IH]; intros f Np Hn; [congruence|]. cbn in *.
  destruct f as [l|a]; [|congruence]. destruct (assoc s l) as [m|] eqn:E; [|congruence].
  destruct p as [|t p]; [eexists; reflexivity|].
  destruct (IH m ltac:(discriminate) Hn) as [m' P]. rewrite P. eexists. reflexivity.
Qed.

Lemma replace_same : forall p v f f' q, replace p v f = Ok f' -> lookup (p ++ q) f' = lookup q v.
Proof.
  induction p as [|s p IH]; intros v f f' q H; cbn in H; [injection H as <-; reflexivity|].
  destruct f as [l|]; [|discriminate]. destruct (assoc s l) as [m|] eqn:E; [|discriminate].
  destruct (replace p v m) as [m'|] eqn:P; [|discriminate]. cbn in H. injection H as <-. cbn.
  rewrite (assoc_update_same _ _ _ _ E). exact (IH _ _ _ _ P).
Qed.
Lemma replace_apart : forall p v f f' q, replace p v f = Ok f' -> apart p q -> lookup q f' = lookup q f.
Proof.
  induction p as [|s p IH]; intros v f f' q H A; [inversion A|].
  cbn in H. destruct f as [l|]; [|discriminate]. destruct (assoc s l) as [m|] eqn:E; [|discriminate].
  destruct (replace p v m) as [m'|] eqn:P; [|discriminate]. cbn in H. injection H as <-.
  inversion A as [s0 t p0 q0 N|s0 p0 q0 A']; subst; cbn.
  - rewrite assoc_update_other by exact N. reflexivity.
  - rewrite (assoc_update_same _ _ _ _ E), E. exact (IH _ _ _ _ P A').
Qed.
Lemma replace_prefix : forall p v f f' q t r, replace p v f = Ok f' -> p = (q ++ t :: r)%list ->
  exists l, lookup q f' = Some (Group l).
Proof.
  induction p as [|s p IH]; intros v f f' q t r H E; [destruct q; discriminate|].
  cbn in H. destruct f as [l|]; [|discriminate]. destruct (assoc s l) as [m|] eqn:A; [|discriminate].
  destruct (replace p v m) as [m'|] eqn:P; [|discriminate]. cbn in H. injection H as <-.
  destruct q as [|s' q]; cbn in E; [eexists; reflexivity|].
  injection E as <- E. cbn. rewrite (assoc_update_same _ _ _ _ A). exact (IH _ _ _ _ _ _ P E).
Qed.
Lemma replace_ok : forall p v f, lookup p f <> None -> exists f', replace p v f = Ok f'.
Proof.
  induction p as [|s p IH]; intros v f Hn; [eexists; reflexivity|]. cbn in *.
  destruct f as [l|a]; [|congruence]. destruct (assoc s l) as [m|] eqn:E; [|congruence].
  destruct (IH v m Hn) as [m' P]. rewrite P. eexists. reflexivity.
Qed.

(** * Text *)

(** A character does not occur. *)
Fixpoint free (c : ascii) (s : string) : Prop :=
  match s with EmptyString => True | String a s' => a <> c /\ free c s' end.
Lemma free_app : forall c s t, free c (s ++ t) <-> free c s /\ free c t.
Proof. intros c s t. induction s as [|a s IH]; cbn; [tauto|]. rewrite IH. tauto. Qed.

Lemma split_free : forall s, free "/" s -> split_slash s = [s].
Proof.
  induction s as [|a s IH]; cbn; [reflexivity|]. intros [N F]. rewrite (IH F).
  destruct (Ascii.eqb_spec a "/"); [congruence|reflexivity].
Qed.
Lemma split_ne : forall s, split_slash s <> nil.
Proof. induction s as [|a s IH]; cbn; [discriminate|]. destruct (split_slash s); [congruence|]. destruct (Ascii.eqb a "/"); discriminate. Qed.
Lemma split_slash_app : forall s t, split_slash (s ++ "/" ++ t) = (split_slash s ++ split_slash t)%list.
Proof.
  induction s as [|a s IH]; intros t.
  - cbn. destruct (split_slash t) eqn:E; [destruct (split_ne _ E)|reflexivity].
  - cbn [append split_slash]. cbn [append] in IH. rewrite IH.
    destruct (split_slash s) as [|w ws] eqn:E; [destruct (split_ne _ E)|]. cbn [app].
    destruct (Ascii.eqb a "/"); reflexivity.
Qed.
Lemma parts_free : forall s, free "/" s -> s <> "" -> parts s = [s].
Proof.
  intros s F N. unfold parts. rewrite (split_free _ F). cbn. apply String.eqb_neq in N. rewrite N. reflexivity.
Qed.
Lemma parts_app : forall s t, parts (s ++ "/" ++ t) = (parts s ++ parts t)%list.
Proof. intros s t. unfold parts. rewrite split_slash_app, filter_app. reflexivity. Qed.
Lemma absolute_free : forall s, free "/" s -> absolute s = false.
Proof. intros [|a s]; cbn; [reflexivity|]. intros [N _]. destruct (Ascii.eqb_spec a "/"); [congruence|reflexivity]. Qed.

(** A plain name: no slash, not empty. *)
Definition plain (s : string) : Prop := free "/" s /\ s <> "".
Lemma resolve_plain : forall base s, plain s -> resolve base s = (base ++ [s])%list.
Proof. intros base s [F N]. unfold resolve. rewrite (absolute_free _ F), (parts_free _ F N). reflexivity. Qed.
Lemma resolve_abs : forall base s, plain s -> resolve base ("/" ++ s) = [s].
Proof.
  intros base s [F N]. unfold resolve. change (absolute ("/" ++ s)) with true. cbv iota.
  change ("/" ++ s)%string with ("" ++ "/" ++ s)%string. rewrite parts_app, (parts_free _ F N). reflexivity.
Qed.
Lemma resolve_kind : forall base kind s, plain kind -> plain s ->
  resolve base (kind ++ "/" ++ "/" ++ s) = (base ++ [kind; s])%list.
Proof.
  intros base kind s [Fk Nk] [F N]. unfold resolve.
  assert (A : absolute (kind ++ "/" ++ "/" ++ s) = false).
  { destruct kind as [|a k]; [congruence|]. cbn in *. destruct Fk. destruct (Ascii.eqb_spec a "/"); [congruence|reflexivity]. }
  rewrite A. rewrite parts_app, (parts_free _ Fk Nk).
  change ("/" ++ s)%string with ("" ++ "/" ++ s)%string. rewrite parts_app, (parts_free _ F N). reflexivity.
Qed.

(** * Single steps on an open file *)

Lemma hbind_inv : forall A B (m : h5 A) (k : A -> h5 B) f b f',
  hbind m k f = (Ok b, f') -> exists a f1, m f = (Ok a, f1) /\ k a f1 = (Ok b, f').
Proof. intros A B m k f b f' H. unfold hbind in H. destruct (m f) as [[a|e] f1]; [eauto|discriminate]. Qed.

Lemma change_inv : forall g f f' u, change g f = (Ok u, f') -> g f = Ok f'.
Proof. intros g f f' u H. unfold change in H. destruct (g f); [injection H as _ <-; reflexivity|discriminate]. Qed.

Definition frame (p : list string) (f f' : node) : Prop := forall q, apart p q -> lookup q f' = lookup q f.

Lemma clear_spec : forall base name f f' u, h_clear base name f = (Ok u, f') ->
  lookup (resolve base name) f' = None /\ frame (resolve base name) f f'.
Proof.
  intros base name f f' u H. unfold h_clear, h_contains, hbind in H.
  destruct (lookup (resolve base name) f) eqn:E.
  - apply change_inv in H. split.
    + rewrite <- (app_nil_r (resolve base name)). eapply remove_same. exact H.
    + intros q A. eapply remove_apart; eassumption.
  - injection H as _ <-. split; [exact E|]. intros q _. reflexivity.
Qed.
Lemma data_spec : forall base name a f f' p, h_data base name a f = (Ok p, f') ->
  p = resolve base name /\ lookup p f' = Some (Dset a) /\ frame p f f'.
Proof.
  intros base name a f f' p H. apply hbind_inv in H as (u & f1 & H & K). apply change_inv in H.
  injection K as <- <-. split; [reflexivity|]. split.
  - rewrite <- (app_nil_r (resolve base name)). rewrite (put_same _ _ _ _ _ H). reflexivity.
  - intros q A. eapply put_apart; eassumption.
Qed.
Lemma open_spec : forall base name f f' p, h_open base name f = (Ok p, f') ->
  p = resolve base name /\ f' = f /\ exists l, lookup p f = Some (Group l).
Proof.
  intros base name f f' p H. unfold h_open in H. destruct (lookup (resolve base name) f) as [[l|a]|] eqn:E; try discriminate.
  injection H as <- <-. eauto.
Qed.
Lemma group_spec : forall s f f', put [s] (Group nil) f = Ok f' ->
  lookup [s] f' = Some (Group nil) /\ lookup [s] f = None /\
  forall q, q <> nil -> q <> [s] -> lookup q f' = lookup q f.
Proof.
  intros s f f' H. split; [apply (put_same [s] _ _ _ nil H)|]. pose proof (put_new _ _ _ _ H) as N. split; [exact N|].
  intros [|t r] N1 N2; [congruence|]. destruct (string_dec s t) as [->|D]; [|apply (put_apart _ _ _ _ _ H); constructor; exact D].
  pose proof (put_same [t] _ _ _ r H) as Q. cbn [app] in Q. rewrite Q. clear Q. destruct r as [|a r]; [congruence|]. cbn. cbn in N.
  destruct f as [l|]; [|discriminate]. destruct (assoc t l); [discriminate|reflexivity].
Qed.
(** [if not f.__contains__(name): f.create_group(name)] with a plain name [s]. *)
Lemma ensure_spec : forall s f f' u b, b = match lookup [s] f with Some _ => true | None => false end ->
  (if b then hret tt else change (put [s] (Group nil))) f = (Ok u, f') ->
  lookup [s] f' <> None /\ (lookup [s] f <> None -> f' = f) /\ forall q, q <> nil -> q <> [s] -> lookup q f' = lookup q f.
Proof.
  intros s f f' u b -> H. destruct (lookup [s] f) as [n|] eqn:E.
  - injection H as _ <-. split; [congruence|]. split; auto.
  - apply change_inv in H. destruct (group_spec _ _ _ H) as (A & B & C). split; [congruence|]. split; [congruence|exact C].
Qed.

(** One row as stored: converted to single precision, a single number repeated. *)
Definition row_stored (n : nat) (row out : list R) : Prop :=
  (length row = n /\ out = map f32 row) \/ (length row <> n /\ exists x, row = x :: nil /\ out = repeat (f32 x) n).
Lemma row_spec : forall p i row f f' u rows, h_row p i row f = (Ok u, f') -> lookup p f = Some (Dset (A2 rows)) ->
  exists old new, nth_error rows i = Some old /\ row_stored (length old) row new /\
    lookup p f' = Some (Dset (A2 (firstn i rows ++ new :: skipn (S i) rows))) /\ frame p f f'.
Proof.
  intros p i row f f' u rows H E. unfold h_row in H. apply change_inv in H. rewrite E in H.
  unfold getitem in H. destruct (nth_error rows i) as [old|] eqn:En; [|discriminate]. cbn [bind] in H.
  exists old.
  assert (K : exists new, row_stored (length old) row new /\
            (rows' <- setitem rows i new ;; replace p (Dset (A2 rows')) f) = Ok f').
  { destruct (Nat.eqb_spec (length row) (length old)) as [El|El].
    - exists (map f32 row). split; [left; auto|exact H].
    - destruct row as [|x [|y row]]; try discriminate. exists (repeat (f32 x) (length old)).
      split; [right; split; [exact El|eauto]|exact H]. }
  destruct K as (new & Rs & K). exists new. split; [reflexivity|]. split; [exact Rs|].
  assert (Hi : (i < length rows)%nat) by (apply nth_error_Some; congruence).
  destruct (setitem rows i new) as [rows'|] eqn:Es; [|discriminate]. cbn [bind] in K.
  assert (rows' = firstn i rows ++ new :: skipn (S i) rows)%list as ->.
  { revert Es. unfold setitem. destruct (Nat.ltb_spec i (length rows)); [congruence|lia]. }
  split.
  - rewrite <- (app_nil_r p). rewrite (replace_same _ _ _ _ _ K). reflexivity.
  - intros q A. eapply replace_apart; eassumption.
Qed.

(** * Names *)

(** The contract on python's [str] of a float: no slash and no underscore among the characters. *)
Definition tame (pr : R -> string) : Prop := forall x, free "/" (pr x) /\ free "_" (pr x).

Definition key_name (pr : R -> string) (source_name : string) (uncollided moving : bool) (N_space : nat)
    (tfinal c x0_or_sigma epsilon : R) : string :=
  source_name ++ times "_uncollided_" uncollided ++ times "moving_mesh_" moving ++ "N_space = "
      ++ str_nat N_space ++ "_t = " ++ pr tfinal ++ "_c = " ++ pr c ++ "_x0_or_sigma = " ++ pr x0_or_sigma
      ++ (if Reqb epsilon 1 then "" else "_epsilon=" ++ pr epsilon).

Lemma uint_free : forall c d, In c ["/"; "_"; " "; "="; "e"]%char -> free c (NilEmpty.string_of_uint d).
Proof.
  intros c d Hc. induction d; cbn; auto; (split; [|assumption]); intros <-; cbn in Hc;
    repeat destruct Hc as [Hc|Hc]; try discriminate; assumption.
Qed.
Lemma str_nat_free : forall c n, In c ["/"; "_"; " "; "="; "e"]%char -> free c (str_nat n).
Proof. intros. apply uint_free. assumption. Qed.

Ltac lit := cbn; repeat split; discriminate.
Lemma key_plain : forall pr s u m N t c w e, tame pr -> In s source_names -> plain (key_name pr s u m N t c w e).
Proof.
  intros pr s u m N t c w e T Hs. split.
  - unfold key_name, times. rewrite !free_app.
    assert (free "/" s) by (cbn in Hs; repeat destruct Hs as [<-|Hs]; try contradiction; lit).
    pose proof (fun x => proj1 (T x)) as P.
    repeat split; auto; try lit; try (apply str_nat_free; cbn; auto); try (destruct u); try (destruct m); try lit.
    all: destruct (Reqb e 1); [exact I|]; rewrite free_app; (split; [lit|auto]).
  - unfold key_name. cbn in Hs. repeat destruct Hs as [<-|Hs]; try contradiction; discriminate.
Qed.
Lemma key_str_name : forall pr s u m N t c w e, key_str pr s u m N t c w e = ("/" ++ key_name pr s u m N t c w e)%string.
Proof. reflexivity. Qed.

Lemma folder_plain : forall pr sv, tame pr -> plain (save_folder pr sv).
Proof.
  intros pr sv T. pose proof (fun x => proj1 (T x)) as P. unfold save_folder.
  repeat match goal with |- plain (if ?b then _ else _) => destruct b end;
  (split; [rewrite ?free_app; repeat split; auto; try lit|discriminate]).
Qed.
Lemma folder_not_key : forall pr sv s u m N t c w e, In s source_names -> save_folder pr sv <> key_name pr s u m N t c w e.
Proof.
  intros pr sv s u m N t c w e Hs. unfold save_folder, key_name.
  cbn in Hs. repeat destruct Hs as [<-|Hs]; try contradiction;
  repeat match goal with |- context [if String.eqb (s_problem sv) ?x then _ else _] => destruct (String.eqb (s_problem sv) x) end; discriminate.
Qed.

(** * The effect of one save *)

Definition kinds : list string := ["solution"; "coefficients"; "weights"; "edges"].
Lemma kind_plain : forall k, In k kinds -> plain k.
Proof. intros k H. cbn in H. repeat destruct H as [<-|H]; try contradiction; (split; [lit|discriminate]). Qed.

(** The six datasets a save writes. *)
Definition written (F K : string) : list (list string) :=
  [[F; "solution"; K]; [K; "psi"]; [K; "mus"]; [F; "coefficients"; K]; [F; "weights"; K]; [F; "edges"; K]].

Tactic Notation "hinv" hyp(H) ident(a) ident(f1) ident(E) := apply hbind_inv in H; destruct H as (a & f1 & E & H).
Ltac ap := first [assumption | apply apart_tail; ap | apply apart_head; first [discriminate | assumption | congruence]].
Ltac fr := match goal with
  | E : frame ?p ?f ?f' |- lookup ?q ?f' = _ => rewrite (E q) by ap; fr
  | |- _ => idtac end.

Lemma save_effect : forall pr sv o w N s2 eps f f' F K,
  tame pr -> F = save_folder pr sv ->
  K = key_name pr (s_source sv) (s_uncollided sv) (s_moving sv) N (s_tfinal sv) (s_c sv) w (s_epsilon sv) ->
  plain F -> plain K -> F <> K ->
  save_solution pr sv o w N s2 eps f = (Ok tt, f') ->
  (exists phi e zeros,
     row_stored (length (o_xs o)) (o_phi o) phi /\
     (if String.eqb F "transport" then e = repeat 0 (length (o_xs o)) else row_stored (length (o_xs o)) (o_e o) e) /\
     lookup [F; "solution"; K] f' = Some (Dset (A2 [map f32 (o_xs o); phi; e; zeros]))) /\
  lookup [K; "psi"] f' = Some (Dset (A2 (o_psi o))) /\
  lookup [K; "mus"] f' = Some (Dset (A1 (o_mus o))) /\
  lookup [F; "coefficients"; K] f' = Some (Dset (A3 (o_coeff o))) /\
  lookup [F; "weights"; K] f' = Some (Dset (A1 (o_ws o))) /\
  lookup [F; "edges"; K] f' = Some (Dset (A1 (o_edges o))) /\
  (lookup [F] f = None \/ exists l, lookup [F] f = Some (Group l)) /\
  (lookup [K] f = None \/ exists l, lookup [K] f = Some (Group l)) /\
  (forall q, q <> nil -> q <> [F] -> q <> [K] -> (forall p, In p (written F K) -> apart p q) -> lookup q f' = lookup q f).
Proof.
  intros pr sv o w N s2 eps f f' F K T EF EK PF PK FK H. unfold save_solution in H. cbv zeta in H.
  rewrite key_str_name in H. rewrite <- EF, <- EK in H.
  hinv H b0 f0 E0. unfold h_contains in E0. injection E0 as E0 <-. rewrite (resolve_plain _ _ PF) in E0. cbn [app] in E0.
  hinv H u1 f1 E1. unfold h_group in E1. rewrite (resolve_plain _ _ PF) in E1. cbn [app] in E1.
  destruct (ensure_spec F _ _ _ _ (eq_sym E0) E1) as (B1 & B1' & B1'').
  hinv H g f2 E2. destruct (open_spec _ _ _ _ _ E2) as (-> & -> & l1 & G1). rewrite (resolve_plain _ _ PF) in *. cbn [app] in *.
  hinv H u3 f3 E3. destruct (clear_spec _ _ _ _ _ E3) as (C3 & R3).
  change ("solution/" ++ "/" ++ K)%string with ("solution" ++ "/" ++ "/" ++ K)%string in *.
  change ("coefficients/" ++ "/" ++ K)%string with ("coefficients" ++ "/" ++ "/" ++ K)%string in *.
  change ("weights/" ++ "/" ++ K)%string with ("weights" ++ "/" ++ "/" ++ K)%string in *.
  change ("edges/" ++ "/" ++ K)%string with ("edges" ++ "/" ++ "/" ++ K)%string in *.
  rewrite (resolve_kind _ "solution" K) in R3, C3 by (auto; apply kind_plain; cbn; auto).
  hinv H ds f4 E4. destruct (data_spec _ _ _ _ _ _ E4) as (Eds & C4 & R4).
  rewrite (resolve_kind _ "solution" K) in Eds by (auto; apply kind_plain; cbn; auto). subst ds. cbn [app] in *.
  hinv H b5 f5 E5. unfold h_contains in E5. injection E5 as E5 <-. rewrite (resolve_abs _ _ PK) in E5.
  hinv H u6 f6 E6. unfold h_group in E6. rewrite (resolve_abs _ _ PK) in E6.
  destruct (ensure_spec K _ _ _ _ (eq_sym E5) E6) as (B6 & B6' & B6'').
  hinv H k f7 E7. destruct (open_spec _ _ _ _ _ E7) as (-> & -> & l7 & G7). rewrite (resolve_abs _ _ PK) in *.
  assert (Pp : plain "psi") by (split; [lit|discriminate]).
  assert (Pm : plain "mus") by (split; [lit|discriminate]).
  hinv H u8 f8 E8. destruct (clear_spec _ _ _ _ _ E8) as (C8 & R8). rewrite (resolve_plain _ _ Pp) in C8, R8.
  hinv H u9 f9 E9. destruct (clear_spec _ _ _ _ _ E9) as (C9 & R9). rewrite (resolve_plain _ _ Pm) in C9, R9.
  cbn [app] in *.
  assert (KF : K <> F) by congruence.
  assert (S9 : lookup [F; "solution"; K] f9 = Some (Dset (A2 (repeat (repeat 0 (length (o_xs o))) 4)))).
  { rewrite (R9 [F; "solution"; K]) by ap. rewrite (R8 [F; "solution"; K]) by ap. rewrite B6'' by congruence. exact C4. }
  hinv H u10 f10 E10. destruct (row_spec _ _ _ _ _ _ _ E10 S9) as (old & xs' & Eo & Rx & S10 & R10).
  cbn in Eo. injection Eo as <-. cbn [firstn skipn repeat app] in S10.
  hinv H u11 f11 E11. destruct (row_spec _ _ _ _ _ _ _ E11 S10) as (old & phi & Eo & Rp & S11 & R11).
  cbn in Eo. injection Eo as <-. cbn [firstn skipn repeat app] in S11.
  rewrite repeat_length in Rx, Rp.
  assert (xs' = map f32 (o_xs o)) as -> by (destruct Rx as [[_ ->]|[Q _]]; [reflexivity|congruence]).
  hinv H u12 f12 E12.
  assert (S12 : exists e, (if String.eqb F "transport" then e = repeat 0 (length (o_xs o)) else row_stored (length (o_xs o)) (o_e o) e) /\
     lookup [F; "solution"; K] f12 = Some (Dset (A2 [map f32 (o_xs o); phi; e; repeat 0 (length (o_xs o))])) /\
     frame [F; "solution"; K] f11 f12).
  { destruct (String.eqb F "transport").
    - injection E12 as _ <-. eexists. split; [reflexivity|]. split; [exact S11|]. intros q _. reflexivity.
    - destruct (row_spec _ _ _ _ _ _ _ E12 S11) as (old & e & Eo & Re & S12 & R12).
      cbn in Eo. injection Eo as <-. cbn [firstn skipn repeat app] in S12. rewrite repeat_length in Re. eauto. }
  destruct S12 as (e & Re & S12 & R12).
  hinv H p13 f13 E13. destruct (data_spec _ _ _ _ _ _ E13) as (-> & C13 & R13). rewrite (resolve_plain _ _ Pp) in C13, R13.
  hinv H p14 f14 E14. destruct (data_spec _ _ _ _ _ _ E14) as (-> & C14 & R14). rewrite (resolve_plain _ _ Pm) in C14, R14.
  hinv H u15 f15 E15. destruct (clear_spec _ _ _ _ _ E15) as (C15 & R15).
  rewrite (resolve_kind _ "coefficients" K) in R15, C15 by (auto; apply kind_plain; cbn; auto).
  hinv H p16 f16 E16. destruct (data_spec _ _ _ _ _ _ E16) as (-> & C16 & R16).
  rewrite (resolve_kind _ "coefficients" K) in R16, C16 by (auto; apply kind_plain; cbn; auto).
  hinv H u17 f17 E17. destruct (clear_spec _ _ _ _ _ E17) as (C17 & R17).
  rewrite (resolve_kind _ "weights" K) in R17, C17 by (auto; apply kind_plain; cbn; auto).
  hinv H p18 f18 E18. destruct (data_spec _ _ _ _ _ _ E18) as (-> & C18 & R18).
  rewrite (resolve_kind _ "weights" K) in R18, C18 by (auto; apply kind_plain; cbn; auto).
  hinv H u19 f19 E19. destruct (clear_spec _ _ _ _ _ E19) as (C19 & R19).
  rewrite (resolve_kind _ "edges" K) in R19, C19 by (auto; apply kind_plain; cbn; auto).
  hinv H p20 f20 E20. destruct (data_spec _ _ _ _ _ _ E20) as (-> & C20 & R20).
  rewrite (resolve_kind _ "edges" K) in R20, C20 by (auto; apply kind_plain; cbn; auto).
  injection H as <-. cbn [app] in *.
  split; [exists phi, e, (repeat 0 (length (o_xs o))); split; [exact Rp|]; split; [exact Re|]; fr; exact S12|].
  split; [fr; exact C13|]. split; [fr; exact C14|]. split; [fr; exact C16|]. split; [fr; exact C18|]. split; [exact C20|].
  split; [|split].
  - destruct (lookup [F] f) as [n|] eqn:L; [|left; reflexivity]. right.
    assert (f1 = f) as -> by (apply B1'; discriminate). rewrite L in G1. eauto.
  - assert (L4 : lookup [K] f4 = lookup [K] f).
    { rewrite (R4 [K]) by ap. rewrite (R3 [K]) by ap. apply B1''; congruence. }
    destruct (lookup [K] f) as [n|] eqn:L; [|left; reflexivity]. right.
    assert (f6 = f4) as -> by (apply B6'; congruence). rewrite L4 in G7. eauto.
  - intros q Q1 Q2 Q3 W.
    assert (W1 := W [F; "solution"; K] ltac:(cbn; auto)). assert (W2 := W [K; "psi"] ltac:(cbn; auto)).
    assert (W3 := W [K; "mus"] ltac:(cbn; auto)). assert (W4 := W [F; "coefficients"; K] ltac:(cbn; auto 9)).
    assert (W5 := W [F; "weights"; K] ltac:(cbn; auto 9)). assert (W6 := W [F; "edges"; K] ltac:(cbn; auto 9)).
    rewrite R20, R19, R18, R17, R16, R15, R14, R13, R12, R11, R10, R9, R8 by assumption.
    rewrite B6'' by assumption. rewrite R4, R3 by assumption. apply B1''; assumption.
Qed.

(** * What a save leaves alone, however it ends *)

(** Paths compared: they part, or one continues the other. *)
Lemma paths : forall p q : list string,
  apart p q \/ (exists t r, p = q ++ t :: r)%list \/ (exists r, q = p ++ r)%list.
Proof.
  induction p as [|s p IH]; intros q; [right; right; exists q; reflexivity|].
  destruct q as [|t q]; [right; left; exists s, p; reflexivity|].
  destruct (string_dec s t) as [->|N]; [|left; apply apart_head; exact N].
  destruct (IH q) as [A|[(x & r & ->)|(r & ->)]].
  - left. apply apart_tail. exact A.
  - right. left. exists x, r. reflexivity.
  - right. right. exists r. reflexivity.
Qed.

(** A member of the root is kept if it is a dataset, stays a group if it is one. *)
Definition root_kept (f f' : node) : Prop := forall s,
  match lookup [s] f with
  | Some (Dset a) => lookup [s] f' = Some (Dset a)
  | Some (Group _) => exists l, lookup [s] f' = Some (Group l)
  | None => notD f' [s]
  end.
Definition left_alone (F K : string) (f f' : node) : Prop :=
  (forall q, q <> nil -> q <> [F] -> q <> [K] -> (forall p, In p (written F K) -> apart p q) -> lookup q f' = lookup q f) /\
  root_kept f f'.

Lemma root_refl : forall f, root_kept f f.
Proof. intros f s. unfold notD. destruct (lookup [s] f) as [[l|a]|]; eauto. Qed.
Lemma left_refl : forall F K f, left_alone F K f f.
Proof. intros F K f. split; [reflexivity|apply root_refl]. Qed.
Lemma left_trans : forall F K f g h, left_alone F K f g -> left_alone F K g h -> left_alone F K f h.
Proof.
  intros F K f g h [A A'] [B B']. split.
  - intros q Q1 Q2 Q3 W. rewrite B, A by assumption. reflexivity.
  - intros s. specialize (A' s). specialize (B' s). unfold notD in *. destruct (lookup [s] f) as [[l|a]|].
    + destruct A' as [l' E]. rewrite E in B'. exact B'.
    + rewrite A' in B'. exact B'.
    + destruct (lookup [s] g) as [[l|a]|]; [|contradiction|exact B']. destruct B' as [l' ->]. exact I.
Qed.

Definition keeps {A} (F K : string) (m : h5 A) : Prop := forall f r f', m f = (r, f') -> left_alone F K f f'.
Lemma keeps_bind : forall A B F K (m : h5 A) (k : A -> h5 B),
  keeps F K m -> (forall f a f1, m f = (Ok a, f1) -> keeps F K (k a)) -> keeps F K (hbind m k).
Proof.
  intros A B F K m k Hm Hk f r f' H. unfold hbind in H. destruct (m f) as [[a|e] f1] eqn:E.
  - eapply left_trans; [eapply Hm; exact E|]. eapply Hk; [exact E|exact H].
  - injection H as _ <-. eapply Hm. exact E.
Qed.
Lemma keeps_ret : forall A F K (a : A), keeps F K (hret a).
Proof. intros A F K a f r f' H. injection H as _ <-. apply left_refl. Qed.
Lemma keeps_contains : forall F K b n, keeps F K (h_contains b n).
Proof. intros F K b n f r f' H. injection H as _ <-. apply left_refl. Qed.
Lemma keeps_open : forall F K b n, keeps F K (h_open b n).
Proof. intros F K b n f r f' H. injection H as _ <-. apply left_refl. Qed.
Lemma keeps_change : forall F K g, (forall f f', g f = Ok f' -> left_alone F K f f') -> keeps F K (change g).
Proof.
  intros F K g Hg f r f' H. unfold change in H. destruct (g f) eqn:E; injection H as _ <-; [auto|apply left_refl].
Qed.

Lemma root_prefix : forall f f' s t r, frame (s :: t :: r) f f' -> (exists l, lookup [s] f' = Some (Group l)) ->
  notD f [s] -> root_kept f f'.
Proof.
  intros f f' s t r Fr [l G] N x. destruct (string_dec s x) as [->|D].
  - unfold notD in *. rewrite G. destruct (lookup [x] f) as [[l'|a]|]; eauto; contradiction.
  - rewrite (Fr [x]) by (apply apart_head; exact D). unfold notD. destruct (lookup [x] f) as [[l'|a]|] eqn:E; eauto.
    rewrite (Fr [x]) by (apply apart_head; exact D). rewrite E. exact I.
Qed.
Lemma long : forall F K p, In p (written F K) -> exists s t r, p = s :: t :: r.
Proof. intros F K p H. cbn in H. repeat destruct H as [<-|H]; try contradiction; eauto. Qed.

Lemma keeps_put : forall F K p a, In p (written F K) -> keeps F K (change (put p (Dset a))).
Proof.
  intros F K p a Hp. apply keeps_change. intros f f' H. split.
  - intros q _ _ _ W. eapply put_apart; [exact H|apply W; exact Hp].
  - destruct (long _ _ _ Hp) as (s & t & r & ->). apply (root_prefix f f' s t r).
    + intros q A. eapply put_apart; eassumption.
    + exact (put_prefix _ _ _ _ [s] t r H eq_refl).
    + unfold notD. cbn in H |- *. destruct f as [l|]; [|discriminate]. destruct (assoc s l) as [[l'|]|]; [exact I|discriminate|exact I].
Qed.
Lemma keeps_remove : forall F K p, In p (written F K) -> keeps F K (change (remove p)).
Proof.
  intros F K p Hp. apply keeps_change. intros f f' H. split.
  - intros q _ _ _ W. eapply remove_apart; [exact H|apply W; exact Hp].
  - destruct (long _ _ _ Hp) as (s & t & r & ->). apply (root_prefix f f' s t r).
    + intros q A. eapply remove_apart; eassumption.
    + exact (remove_prefix _ _ _ [s] t r H eq_refl).
    + unfold notD. cbn in H |- *. destruct f as [l|]; [|discriminate]. destruct (assoc s l) as [[l'|]|]; [exact I|discriminate|exact I].
Qed.
Lemma keeps_clear : forall F K b n, In (resolve b n) (written F K) -> keeps F K (h_clear b n).
Proof.
  intros F K b n H. apply keeps_bind; [apply keeps_contains|]. intros f [] f1 _; [apply keeps_remove; exact H|apply keeps_ret].
Qed.
Lemma keeps_data : forall F K b n a, In (resolve b n) (written F K) -> keeps F K (h_data b n a).
Proof. intros F K b n a H. apply keeps_bind; [apply keeps_put; exact H|]. intros. apply keeps_ret. Qed.
Lemma keeps_row : forall F K p i row, In p (written F K) -> keeps F K (h_row p i row).
Proof.
  intros F K p i row Hp. apply keeps_change. intros f f' H.
  destruct (lookup p f) as [[|[|rows|]]|]; try discriminate.
  destruct (getitem rows i) as [old|]; [|discriminate]. cbn [bind] in H.
  destruct (if (length row =? length old)%nat then _ else _) as [new|]; [|discriminate]. cbn [bind] in H.
  destruct (setitem rows i new) as [rows'|]; [|discriminate]. cbn [bind] in H. split.
  - intros q _ _ _ W. eapply replace_apart; [exact H|apply W; exact Hp].
  - destruct (long _ _ _ Hp) as (s & t & r & ->). apply (root_prefix f f' s t r).
    + intros q A. eapply replace_apart; eassumption.
    + exact (replace_prefix _ _ _ _ [s] t r H eq_refl).
    + unfold notD. cbn in H |- *. destruct f as [l|]; [|discriminate]. destruct (assoc s l) as [[l'|]|]; [exact I|discriminate|exact I].
Qed.
Lemma keeps_group : forall F K s, s = F \/ s = K -> keeps F K (change (put [s] (Group nil))).
Proof.
  intros F K s Hs. apply keeps_change. intros f f' H. destruct (group_spec _ _ _ H) as (A & B & C). split.
  - intros q Q1 Q2 Q3 _. apply C; [exact Q1|]. destruct Hs; subst; assumption.
  - intros x. destruct (string_dec x s) as [->|D].
    + rewrite B. unfold notD. rewrite A. exact I.
    + assert (E : lookup [x] f' = lookup [x] f) by (apply C; congruence).
      rewrite E. unfold notD. destruct (lookup [x] f) as [[l|a]|] eqn:E'; eauto. rewrite E. exact I.
Qed.

Lemma save_keeps : forall pr sv o w N s2 eps F K,
  F = save_folder pr sv ->
  K = key_name pr (s_source sv) (s_uncollided sv) (s_moving sv) N (s_tfinal sv) (s_c sv) w (s_epsilon sv) ->
  plain F -> plain K -> keeps F K (save_solution pr sv o w N s2 eps).
Proof.
  intros pr sv o w N s2 eps F K EF EK PF PK. unfold save_solution. cbv zeta.
  rewrite key_str_name, <- EF, <- EK.
  change ("solution/" ++ "/" ++ K)%string with ("solution" ++ "/" ++ "/" ++ K)%string.
  change ("coefficients/" ++ "/" ++ K)%string with ("coefficients" ++ "/" ++ "/" ++ K)%string.
  change ("weights/" ++ "/" ++ K)%string with ("weights" ++ "/" ++ "/" ++ K)%string.
  change ("edges/" ++ "/" ++ K)%string with ("edges" ++ "/" ++ "/" ++ K)%string.
  assert (RK : forall k, In k kinds -> resolve [F] (k ++ "/" ++ "/" ++ K) = [F; k; K]).
  { intros k Hk. rewrite resolve_kind; [reflexivity|apply kind_plain; exact Hk|exact PK]. }
  assert (WK : forall k, In k kinds -> In (resolve [F] (k ++ "/" ++ "/" ++ K)) (written F K)).
  { intros k Hk. rewrite (RK k Hk). cbn in Hk. repeat destruct Hk as [<-|Hk]; try contradiction; cbn; auto 9. }
  assert (Rp : resolve [K] "psi" = [K; "psi"]) by (apply resolve_plain; split; [lit|discriminate]).
  assert (Rm : resolve [K] "mus" = [K; "mus"]) by (apply resolve_plain; split; [lit|discriminate]).
  apply keeps_bind; [apply keeps_contains|]. intros _ b0 _ _.
  apply keeps_bind; [destruct b0; [apply keeps_ret|]; unfold h_group; rewrite (resolve_plain _ _ PF); apply keeps_group; auto|]. intros _ _ _ _.
  apply keeps_bind; [apply keeps_open|]. intros fa g fb Eg. destruct (open_spec _ _ _ _ _ Eg) as (-> & _). clear fa fb Eg.
  rewrite (resolve_plain _ _ PF). cbn [app].
  apply keeps_bind; [apply keeps_clear, WK; cbn; auto|]. intros _ _ _ _.
  apply keeps_bind; [apply keeps_data, WK; cbn; auto|]. intros fa ds fb Ed. destruct (data_spec _ _ _ _ _ _ Ed) as (-> & _). clear fa fb Ed.
  apply keeps_bind; [apply keeps_contains|]. intros _ b5 _ _.
  apply keeps_bind; [destruct b5; [apply keeps_ret|]; unfold h_group; rewrite (resolve_abs _ _ PK); apply keeps_group; auto|]. intros _ _ _ _.
  apply keeps_bind; [apply keeps_open|]. intros fa k fb Ek. destruct (open_spec _ _ _ _ _ Ek) as (-> & _). clear fa fb Ek.
  rewrite (resolve_abs _ _ PK).
  apply keeps_bind; [apply keeps_clear; rewrite Rp; cbn; auto|]. intros _ _ _ _.
  apply keeps_bind; [apply keeps_clear; rewrite Rm; cbn; auto|]. intros _ _ _ _.
  apply keeps_bind; [apply keeps_row, WK; cbn; auto|]. intros _ _ _ _.
  apply keeps_bind; [apply keeps_row, WK; cbn; auto|]. intros _ _ _ _.
  apply keeps_bind; [destruct (String.eqb F "transport"); [apply keeps_ret|apply keeps_row, WK; cbn; auto]|]. intros _ _ _ _.
  apply keeps_bind; [apply keeps_data; rewrite Rp; cbn; auto|]. intros _ _ _ _.
  apply keeps_bind; [apply keeps_data; rewrite Rm; cbn; auto|]. intros _ _ _ _.
  apply keeps_bind; [apply keeps_clear, WK; cbn; auto|]. intros _ _ _ _.
  apply keeps_bind; [apply keeps_data, WK; cbn; auto|]. intros _ _ _ _.
  apply keeps_bind; [apply keeps_clear, WK; cbn; auto|]. intros _ _ _ _.
  apply keeps_bind; [apply keeps_data, WK; cbn; auto|]. intros _ _ _ _.
  apply keeps_bind; [apply keeps_clear, WK; cbn; auto|]. intros _ _ _ _.
  apply keeps_bind; [apply keeps_data, WK; cbn; auto|]. intros _ _ _ _.
  apply keeps_ret.
Qed.

(** * Keys told apart *)

Lemma str_nat_inj : forall a b, str_nat a = str_nat b -> a = b.
Proof.
  intros a b H. unfold str_nat in H. apply (f_equal NilEmpty.uint_of_string) in H. rewrite !NilEmpty.usu in H.
  injection H as H. apply (f_equal Nat.of_uint) in H. rewrite !Unsigned.of_to in H. exact H.
Qed.
(** The first underscore splits a text in one way. *)
Lemma split_at : forall c a b x y, free c a -> free c b -> (a ++ String c x = b ++ String c y)%string -> a = b /\ x = y.
Proof.
  intros c a. induction a as [|h a IH]; intros [|k b] x y Fa Fb H; cbn in *.
  - injection H as ->. auto.
  - injection H as <- _. destruct Fb. congruence.
  - injection H as -> _. destruct Fa. congruence.
  - injection H as -> H. destruct Fa as [_ Fa], Fb as [_ Fb]. destruct (IH b x y Fa Fb H) as [-> ->]. auto.
Qed.
Definition front (s : string) (u m : bool) : string :=
  (s ++ times "_uncollided_" u ++ times "moving_mesh_" m ++ "N_space = ")%string.
Lemma front_inj : forall s u m s' u' m' x y, In s source_names -> In s' source_names ->
  (front s u m ++ x = front s' u' m' ++ y)%string -> s = s' /\ u = u' /\ m = m' /\ x = y.
Proof.
  intros s u m s' u' m' x y Hs Hs' H. cbn in Hs, Hs'.
  repeat destruct Hs as [<-|Hs]; try contradiction; repeat destruct Hs' as [<-|Hs']; try contradiction;
  destruct u, m, u', m'; cbn in H; try discriminate H; injection H as H; auto.
Qed.
Lemma app_assoc_s : forall a b c : string, ((a ++ b) ++ c = a ++ b ++ c)%string.
Proof. induction a as [|h a IH]; intros b c; cbn; [reflexivity|]. rewrite IH. reflexivity. Qed.
Lemma key_front : forall pr s u m N t c w e, key_name pr s u m N t c w e =
  (front s u m ++ str_nat N ++ "_t = " ++ pr t ++ "_c = " ++ pr c ++ "_x0_or_sigma = " ++ pr w
     ++ (if Reqb e 1 then "" else "_epsilon=" ++ pr e))%string.
Proof. intros. unfold key_name, front. rewrite !app_assoc_s. reflexivity. Qed.
Lemma app_nil_s : forall a : string, (a ++ "" = a)%string.
Proof. induction a as [|h a IH]; cbn; [reflexivity|]. rewrite IH. reflexivity. Qed.
Lemma free_end : forall c a x y, free c a -> (a = x ++ String c y)%string -> False.
Proof. intros c a x y F ->. apply free_app in F as [_ F]. cbn in F. destruct F. congruence. Qed.

Lemma key_inj : forall pr s u m N t c w e s' u' m' N' t' c' w' e',
  tame pr -> In s source_names -> In s' source_names ->
  key_name pr s u m N t c w e = key_name pr s' u' m' N' t' c' w' e' ->
  s = s' /\ u = u' /\ m = m' /\ N = N' /\ pr t = pr t' /\ pr c = pr c' /\ pr w = pr w' /\
  (e = 1 <-> e' = 1) /\ (e <> 1 -> pr e = pr e').
Proof.
  intros pr s u m N t c w e s' u' m' N' t' c' w' e' T Hs Hs' H. rewrite !key_front in H.
  apply front_inj in H as (-> & -> & -> & H); [|assumption|assumption].
  pose proof (fun x => proj2 (T x)) as P.
  change ("_t = " ++ ?x)%string with (String "_" ("t = " ++ x)) in H.
  apply split_at in H as [HN H]; [|apply str_nat_free; cbn; auto|apply str_nat_free; cbn; auto].
  apply str_nat_inj in HN. injection H as H.
  apply split_at in H as [Ht H]; auto. injection H as H.
  apply split_at in H as [Hc H]; auto. injection H as H.
  assert (W : pr w = pr w' /\ (e = 1 <-> e' = 1) /\ (e <> 1 -> pr e = pr e')).
  { destruct (Reqb_spec e 1) as [E|E], (Reqb_spec e' 1) as [E'|E']; rewrite ?app_nil_s in H.
    - split; [exact H|]. split; [tauto|congruence].
    - exfalso. eapply (free_end "_"); [apply P|exact H].
    - exfalso. eapply (free_end "_"); [apply P|symmetry; exact H].
    - apply split_at in H as [Hw H]; auto. injection H as H. split; [exact Hw|]. split; [tauto|auto]. }
  tauto.
Qed.

(** * A save succeeds *)

Lemma put_notD : forall p v f f' q, put p v f = Ok f' -> (q = p -> match v with Dset _ => False | _ => True end) ->
  (forall r x, r <> nil -> lookup r v = Some x -> False) -> notD f q -> notD f' q.
Proof.
  intros p v f f' q H Hp Hv N. destruct (paths p q) as [A|[(t & r & E)|(r & ->)]].
  - unfold notD. rewrite (put_apart _ _ _ _ _ H A). exact N.
  - destruct (put_prefix _ _ _ _ _ _ _ H E) as [l G]. unfold notD. rewrite G. exact I.
  - unfold notD. rewrite (put_same _ _ _ _ r H). destruct r as [|t r].
    + cbn. specialize (Hp (app_nil_r p)). destruct v; [exact I|contradiction].
    + destruct (lookup (t :: r) v) as [[l|x]|] eqn:E; try exact I. exfalso. eapply Hv; [|exact E]. discriminate.
Qed.
Lemma dset_below : forall a r x, r <> nil -> lookup r (Dset a) = Some x -> False.
Proof. intros a [|t r] x N H; [congruence|discriminate]. Qed.
Lemma empty_below : forall r x, r <> nil -> lookup r (Group nil) = Some x -> False.
Proof. intros [|t r] x N H; [congruence|discriminate]. Qed.
Lemma remove_notD : forall p f f' q, remove p f = Ok f' -> notD f q -> notD f' q.
Proof.
  intros p f f' q H N. destruct (paths p q) as [A|[(t & r & E)|(r & ->)]].
  - unfold notD. rewrite (remove_apart _ _ _ _ H A). exact N.
  - destruct (remove_prefix _ _ _ _ _ _ H E) as [l G]. unfold notD. rewrite G. exact I.
  - unfold notD. rewrite (remove_same _ _ _ r H). exact I.
Qed.
Lemma replace_notD : forall p a f f' q, replace p (Dset a) f = Ok f' -> q <> p -> notD f q -> notD f' q.
Proof.
  intros p a f f' q H D N. destruct (paths p q) as [A|[(t & r & E)|(r & ->)]].
  - unfold notD. rewrite (replace_apart _ _ _ _ _ H A). exact N.
  - destruct (replace_prefix _ _ _ _ _ _ _ H E) as [l G]. unfold notD. rewrite G. exact I.
  - unfold notD. rewrite (replace_same _ _ _ _ r H). destruct r as [|t r]; [rewrite app_nil_r in D; congruence|exact I].
Qed.

(** No dataset where groups belong. *)
Definition groups_ok (F K : string) (f : node) : Prop :=
  notD f nil /\ notD f [F] /\ notD f [K] /\ forall k, In k kinds -> notD f [F; k].

Lemma go_bind : forall A B (m : h5 A) (k : A -> h5 B) f a f1, m f = (Ok a, f1) -> hbind m k f = k a f1.
Proof. intros A B m k f a f1 H. unfold hbind. rewrite H. reflexivity. Qed.
Lemma go_contains : forall B b n (k : bool -> h5 B) f,
  hbind (h_contains b n) k f = k (match lookup (resolve b n) f with Some _ => true | None => false end) f.
Proof. reflexivity. Qed.
Lemma go_clear : forall b n f, resolve b n <> nil ->
  exists f', h_clear b n f = (Ok tt, f') /\ forall q, notD f q -> notD f' q.
Proof.
  intros b n f N. unfold h_clear. rewrite go_contains.
  destruct (lookup (resolve b n) f) eqn:E; [|exists f; auto].
  destruct (remove_ok (resolve b n) f N) as [f' H]; [congruence|]. exists f'. unfold h_del, change. rewrite H.
  split; [reflexivity|]. intros q. eapply remove_notD. exact H.
Qed.
Lemma go_data : forall b n a f, resolve b n <> nil -> lookup (resolve b n) f = None ->
  (forall q t r, resolve b n = (q ++ t :: r)%list -> notD f q) ->
  exists f', h_data b n a f = (Ok (resolve b n), f') /\ forall q, q <> resolve b n -> notD f q -> notD f' q.
Proof.
  intros b n a f N E P. destruct (put_ok (resolve b n) (Dset a) f N E P) as [f' H]. exists f'.
  unfold h_data, hbind, change. rewrite H. split; [reflexivity|]. intros q D. eapply put_notD; [exact H|congruence|apply dset_below].
Qed.
Lemma go_ensure : forall s f b, b = match lookup [s] f with Some _ => true | None => false end -> notD f nil -> notD f [s] ->
  exists f' l, (if b then hret tt else change (put [s] (Group nil))) f = (Ok tt, f') /\ lookup [s] f' = Some (Group l) /\
    forall q, notD f q -> notD f' q.
Proof.
  intros s f b -> N0 N1. destruct (lookup [s] f) as [[l|a]|] eqn:E.
  - exists f, l. split; [reflexivity|]. auto.
  - unfold notD in N1. rewrite E in N1. contradiction.
  - destruct (put_ok [s] (Group nil) f) as [f' H]; [discriminate|exact E| |].
    + intros q t r Eq. destruct q as [|x [|y q]]; try discriminate. exact N0.
    + exists f', nil. unfold change. rewrite H. split; [reflexivity|]. split; [exact (put_same [s] _ _ _ nil H)|].
      intros q. eapply put_notD; [exact H|intros _; exact I|apply empty_below].
Qed.
Lemma go_row : forall p i row f rows old, lookup p f = Some (Dset (A2 rows)) -> nth_error rows i = Some old ->
  length row = length old \/ length row = 1%nat ->
  exists f', h_row p i row f = (Ok tt, f') /\ forall q, q <> p -> notD f q -> notD f' q.
Proof.
  intros p i row f rows old E Ei L. unfold h_row, change. rewrite E. unfold getitem. rewrite Ei. cbn [bind].
  assert (Hi : (i < length rows)%nat) by (apply nth_error_Some; congruence).
  assert (X : exists new, (if (length row =? length old)%nat then Ok (map f32 row)
      else match row with [x] => Ok (repeat (f32 x) (length old)) | _ => Err TypeError end) = Ok new).
  { destruct (Nat.eqb_spec (length row) (length old)); [eauto|]. destruct L as [L|L]; [congruence|].
    destruct row as [|x [|y row]]; try discriminate. eauto. }
  destruct X as [new ->]. cbn [bind]. unfold setitem. destruct (Nat.ltb_spec i (length rows)); [|lia]. cbn [bind].
  destruct (replace_ok p (Dset (A2 (firstn i rows ++ new :: skipn (S i) rows))) f) as [f' H']; [congruence|].
  rewrite H'. exists f'. split; [reflexivity|]. intros q D. eapply replace_notD; eassumption.
Qed.

Lemma save_goes : forall pr sv o w N s2 eps f F K,
  F = save_folder pr sv ->
  K = key_name pr (s_source sv) (s_uncollided sv) (s_moving sv) N (s_tfinal sv) (s_c sv) w (s_epsilon sv) ->
  plain F -> plain K -> F <> K -> groups_ok F K f ->
  (length (o_phi o) = length (o_xs o) \/ length (o_phi o) = 1%nat) ->
  (F <> "transport" -> length (o_e o) = length (o_xs o) \/ length (o_e o) = 1%nat) ->
  exists f', save_solution pr sv o w N s2 eps f = (Ok tt, f') /\
    forall q, ~ In q (written F K) -> notD f q -> notD f' q.
Proof.
  intros pr sv o w N s2 eps f F K EF EK PF PK FK (N0 & NF & NK & NFk) Lp Le. unfold save_solution. cbv zeta.
  rewrite key_str_name, <- EF, <- EK.
  change ("solution/" ++ "/" ++ K)%string with ("solution" ++ "/" ++ "/" ++ K)%string.
  change ("coefficients/" ++ "/" ++ K)%string with ("coefficients" ++ "/" ++ "/" ++ K)%string.
  change ("weights/" ++ "/" ++ K)%string with ("weights" ++ "/" ++ "/" ++ K)%string.
  change ("edges/" ++ "/" ++ K)%string with ("edges" ++ "/" ++ "/" ++ K)%string.
  assert (RK : forall k, In k kinds -> resolve [F] (k ++ "/" ++ "/" ++ K) = [F; k; K]).
  { intros k Hk. rewrite resolve_kind; [reflexivity|apply kind_plain; exact Hk|exact PK]. }
  assert (Rp : resolve [K] "psi" = [K; "psi"]) by (apply resolve_plain; split; [lit|discriminate]).
  assert (Rm : resolve [K] "mus" = [K; "mus"]) by (apply resolve_plain; split; [lit|discriminate]).
  assert (RF : resolve nil F = [F]) by (apply resolve_plain; exact PF).
  assert (RKa : forall b, resolve b ("/" ++ K) = [K]) by (intros; apply resolve_abs; exact PK).
  assert (RKs : resolve [F] ("solution" ++ "/" ++ "/" ++ K) = [F; "solution"; K]) by (apply RK; cbn; auto).
  assert (RKc : resolve [F] ("coefficients" ++ "/" ++ "/" ++ K) = [F; "coefficients"; K]) by (apply RK; cbn; auto).
  assert (RKw : resolve [F] ("weights" ++ "/" ++ "/" ++ K) = [F; "weights"; K]) by (apply RK; cbn; auto).
  assert (RKe : resolve [F] ("edges" ++ "/" ++ "/" ++ K) = [F; "edges"; K]) by (apply RK; cbn; auto).
  assert (KF : K <> F) by congruence.
  (* the frame, as a property of files *)
  set (W := written F K).
  set (J := fun f => forall q, ~ In q W -> notD f q).
  set (good := fun g => notD g nil /\ notD g [F] /\ notD g [K] /\ (forall k, In k kinds -> notD g [F; k]) /\
                        (forall q, ~ In q W -> notD f q -> notD g q)).
  assert (G0 : good f) by (repeat split; auto).
  assert (Wn : forall q, ~ In q W -> forall p, In p W -> q <> p) by (intros q Hq p Hp ->; contradiction).
  assert (good_step : forall g g' p, good g -> In p W -> (forall q, q <> p -> notD g q -> notD g' q) -> good g').
  { intros g g' p (A & B & C & D & E) Hp S. subst W. cbn in Hp.
    split; [apply S; [|exact A]; repeat destruct Hp as [<-|Hp]; try contradiction; discriminate|].
    split; [apply S; [|exact B]; repeat destruct Hp as [<-|Hp]; try contradiction; discriminate|].
    split; [apply S; [|exact C]; repeat destruct Hp as [<-|Hp]; try contradiction; discriminate|].
    split; [intros k Hk; apply S; [|apply D; exact Hk]; repeat destruct Hp as [<-|Hp]; try contradiction; intros Q; try discriminate; congruence|].
    intros q Hq Nq. apply S; [|apply E; assumption]. intros ->. apply Hq. cbn. exact Hp. }
  assert (good_all : forall g g', good g -> (forall q, notD g q -> notD g' q) -> good g').
  { intros g g' (A & B & C & D & E) S. repeat split; auto. }
  assert (pre3 : forall g k, good g -> In k kinds -> forall q t r, [F; k; K] = (q ++ t :: r)%list -> notD g q).
  { intros g k (A & B & C & D & E) Hk q t r Eq. destruct q as [|x [|y [|z q]]]; cbn in Eq; [exact A| | |destruct q; discriminate].
    - injection Eq as <- _ _. exact B.
    - injection Eq as <- <- _ _. apply D. exact Hk. }
  assert (pre2 : forall g k, good g -> forall q t r, [K; k] = (q ++ t :: r)%list -> notD g q).
  { intros g k (A & B & C & D & E) q t r Eq. destruct q as [|x [|y q]]; cbn in Eq; [exact A| |destruct q; discriminate].
    injection Eq as <- _ _. exact C. }
  rewrite go_contains, RF.
  unfold h_group at 1. rewrite RF.
  destruct (go_ensure F f _ eq_refl N0 NF) as (f1 & l1 & H1 & L1 & S1). rewrite (go_bind _ _ _ _ _ _ _ H1).
  assert (G1 := good_all _ _ G0 S1). clear H1 S1.
  assert (H2 : h_open nil F f1 = (Ok [F], f1)) by (unfold h_open; rewrite RF, L1; reflexivity).
  rewrite (go_bind _ _ _ _ _ _ _ H2). clear H2.
  destruct (go_clear [F] ("solution" ++ "/" ++ "/" ++ K) f1) as (f3 & H3 & S3); [rewrite RKs; discriminate|].
  rewrite (go_bind _ _ _ _ _ _ _ H3). assert (G3 := good_all _ _ G1 S3). destruct (clear_spec _ _ _ _ _ H3) as (C3 & _).
  rewrite RKs in C3.
  destruct (go_data [F] ("solution" ++ "/" ++ "/" ++ K) (A2 (repeat (repeat 0 (length (o_xs o))) 4)) f3) as (f4 & H4 & S4);
    [rewrite RKs; discriminate|rewrite RKs; exact C3|rewrite RKs; apply pre3; [exact G3|cbn; auto]|].
  rewrite (go_bind _ _ _ _ _ _ _ H4), RKs in *.
  assert (G4 := good_step _ _ [F; "solution"; K] G3 ltac:(cbn; auto 9) S4). destruct (data_spec _ _ _ _ _ _ H4) as (_ & C4 & _).
  rewrite go_contains, RKa. unfold h_group. rewrite RKa.
  destruct (go_ensure K f4 _ eq_refl (proj1 G4) (proj1 (proj2 (proj2 G4)))) as (f6 & l6 & H6 & L6 & S6).
  rewrite (go_bind _ _ _ _ _ _ _ H6). assert (G6 := good_all _ _ G4 S6).
  assert (V6 : lookup [F; "solution"; K] f6 = Some (Dset (A2 (repeat (repeat 0 (length (o_xs o))) 4)))).
  { destruct (ensure_spec K _ _ _ _ eq_refl H6) as (_ & _ & B6). rewrite B6 by congruence. exact C4. }
  assert (H7 : h_open [F] ("/" ++ K) f6 = (Ok [K], f6)) by (unfold h_open; rewrite RKa, L6; reflexivity).
  rewrite (go_bind _ _ _ _ _ _ _ H7). clear H7.
  destruct (go_clear [K] "psi" f6) as (f8 & H8 & S8); [rewrite Rp; discriminate|].
  rewrite (go_bind _ _ _ _ _ _ _ H8). assert (G8 := good_all _ _ G6 S8). destruct (clear_spec _ _ _ _ _ H8) as (C8 & R8). rewrite Rp in C8, R8.
  destruct (go_clear [K] "mus" f8) as (f9 & H9 & S9); [rewrite Rm; discriminate|].
  rewrite (go_bind _ _ _ _ _ _ _ H9). assert (G9 := good_all _ _ G8 S9). destruct (clear_spec _ _ _ _ _ H9) as (C9 & R9). rewrite Rm in C9, R9.
  assert (V9 : lookup [F; "solution"; K] f9 = Some (Dset (A2 (repeat (repeat 0 (length (o_xs o))) 4)))).
  { rewrite (R9 [F; "solution"; K]) by ap. rewrite (R8 [F; "solution"; K]) by ap. exact V6. }
  assert (P9 : lookup [K; "psi"] f9 = None) by (rewrite (R9 [K; "psi"]) by ap; exact C8).
  destruct (go_row [F; "solution"; K] 0 (o_xs o) f9 _ _ V9 eq_refl) as (f10 & H10 & S10); [left; rewrite repeat_length; reflexivity|].
  rewrite (go_bind _ _ _ _ _ _ _ H10). assert (G10 := good_step _ _ [F; "solution"; K] G9 ltac:(cbn; auto 9) S10).
  destruct (row_spec _ _ _ _ _ _ _ H10 V9) as (old & x1 & Eo & _ & V10 & R10). cbn in Eo. injection Eo as <-. cbn [firstn skipn repeat app] in V10.
  destruct (go_row [F; "solution"; K] 1 (o_phi o) f10 _ _ V10 eq_refl) as (f11 & H11 & S11); [rewrite repeat_length; exact Lp|].
  rewrite (go_bind _ _ _ _ _ _ _ H11). assert (G11 := good_step _ _ [F; "solution"; K] G10 ltac:(cbn; auto 9) S11).
  destruct (row_spec _ _ _ _ _ _ _ H11 V10) as (old & x2 & Eo & _ & V11 & R11). cbn in Eo. injection Eo as <-. cbn [firstn skipn repeat app] in V11.
  assert (H12 : exists f12, (if String.eqb F "transport" then hret tt else h_row [F; "solution"; K] 2 (o_e o)) f11 = (Ok tt, f12) /\
     good f12 /\ frame [F; "solution"; K] f11 f12).
  { destruct (String.eqb_spec F "transport") as [Et|Nt]; [exists f11; split; [reflexivity|]; split; [exact G11|]; intros q _; reflexivity|].
    destruct (go_row [F; "solution"; K] 2 (o_e o) f11 _ _ V11 eq_refl) as (f12 & H12 & S12); [rewrite repeat_length; exact (Le Nt)|].
    exists f12. split; [exact H12|]. split; [exact (good_step _ _ [F; "solution"; K] G11 ltac:(cbn; auto 9) S12)|].
    destruct (row_spec _ _ _ _ _ _ _ H12 V11) as (old & x3 & _ & _ & _ & R12). exact R12. }
  destruct H12 as (f12 & H12 & G12 & R12). rewrite (go_bind _ _ _ _ _ _ _ H12). clear H12.
  destruct (go_data [K] "psi" (A2 (o_psi o)) f12) as (f13 & H13 & S13);
    [rewrite Rp; discriminate|rewrite Rp; rewrite (R12 [K; "psi"]), (R11 [K; "psi"]), (R10 [K; "psi"]) by ap; exact P9|rewrite Rp; apply pre2; exact G12|].
  rewrite (go_bind _ _ _ _ _ _ _ H13), Rp in *. assert (G13 := good_step _ _ [K; "psi"] G12 ltac:(cbn; auto 9) S13).
  destruct (data_spec _ _ _ _ _ _ H13) as (_ & _ & R13).
  destruct (go_data [K] "mus" (A1 (o_mus o)) f13) as (f14 & H14 & S14);
    [rewrite Rm; discriminate|rewrite Rm; fr; exact C9|rewrite Rm; apply pre2; exact G13|].
  rewrite (go_bind _ _ _ _ _ _ _ H14), Rm in *. assert (G14 := good_step _ _ [K; "mus"] G13 ltac:(cbn; auto 9) S14).
  destruct (go_clear [F] ("coefficients" ++ "/" ++ "/" ++ K) f14) as (f15 & H15 & S15); [rewrite RKc; discriminate|].
  rewrite (go_bind _ _ _ _ _ _ _ H15). assert (G15 := good_all _ _ G14 S15). destruct (clear_spec _ _ _ _ _ H15) as (C15 & _). rewrite RKc in C15.
  destruct (go_data [F] ("coefficients" ++ "/" ++ "/" ++ K) (A3 (o_coeff o)) f15) as (f16 & H16 & S16);
    [rewrite RKc; discriminate|rewrite RKc; exact C15|rewrite RKc; apply pre3; [exact G15|cbn; auto]|].
  rewrite (go_bind _ _ _ _ _ _ _ H16), RKc in *. assert (G16 := good_step _ _ [F; "coefficients"; K] G15 ltac:(cbn; auto 9) S16).
  destruct (go_clear [F] ("weights" ++ "/" ++ "/" ++ K) f16) as (f17 & H17 & S17); [rewrite RKw; discriminate|].
  rewrite (go_bind _ _ _ _ _ _ _ H17). assert (G17 := good_all _ _ G16 S17). destruct (clear_spec _ _ _ _ _ H17) as (C17 & _). rewrite RKw in C17.
  destruct (go_data [F] ("weights" ++ "/" ++ "/" ++ K) (A1 (o_ws o)) f17) as (f18 & H18 & S18);
    [rewrite RKw; discriminate|rewrite RKw; exact C17|rewrite RKw; apply pre3; [exact G17|cbn; auto]|].
  rewrite (go_bind _ _ _ _ _ _ _ H18), RKw in *. assert (G18 := good_step _ _ [F; "weights"; K] G17 ltac:(cbn; auto 9) S18).
  destruct (go_clear [F] ("edges" ++ "/" ++ "/" ++ K) f18) as (f19 & H19 & S19); [rewrite RKe; discriminate|].
  rewrite (go_bind _ _ _ _ _ _ _ H19). assert (G19 := good_all _ _ G18 S19). destruct (clear_spec _ _ _ _ _ H19) as (C19 & _). rewrite RKe in C19.
  destruct (go_data [F] ("edges" ++ "/" ++ "/" ++ K) (A1 (o_edges o)) f19) as (f20 & H20 & S20);
    [rewrite RKe; discriminate|rewrite RKe; exact C19|rewrite RKe; apply pre3; [exact G19|cbn; auto]|].
  rewrite (go_bind _ _ _ _ _ _ _ H20), RKe in *. assert (G20 := good_step _ _ [F; "edges"; K] G19 ltac:(cbn; auto 9) S20).
  exists f20. split; [reflexivity|]. apply (proj2 (proj2 (proj2 (proj2 G20)))).
Qed.
