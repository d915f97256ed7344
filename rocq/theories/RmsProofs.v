(** Lemmas on the error records. *)
From Coq Require Import String Ascii DecimalString.
From Verif Require Import Py PyLemmas ConfigModel StoreModel StoreProofs RmsModel.
Open Scope string_scope.
Open Scope R_scope.

Lemma lookup_app : forall p q f, lookup (p ++ q) f = match lookup p f with Some m => lookup q m | None => None end.
Proof.
  induction p as [|s p IH]; intros q f; [reflexivity|]. cbn. destruct f as [l|a]; [|reflexivity].
  destruct (assoc s l); [apply IH|reflexivity].
Qed.

Lemma notD_prefix : forall q t r f m, lookup (q ++ t :: r) f = Some m -> notD f q.
Proof. intros q t r f m H. unfold notD. rewrite lookup_app in H. destruct (lookup q f) as [[l|a]|]; auto. discriminate. Qed.

(** No dataset stands where a group is wanted. *)
Definition open_to (P : list string) (f : node) : Prop := forall q r, P = (q ++ r)%list -> notD f q.

Lemma ensure_group : forall dest P f, resolve nil dest = P -> P <> nil -> open_to P f ->
  exists f1 l, (b <~ h_contains nil dest ;; _ <~ (if b then hret tt else h_group nil dest) ;; h_open nil dest) f = (Ok P, f1) /\
    lookup P f1 = Some (Group l) /\
    (forall q, (forall r, P <> (q ++ r)%list) -> lookup q f1 = lookup q f) /\
    (forall q, notD f q -> notD f1 q).
Proof.
  intros dest P f E NP HO. unfold h_contains, hbind, h_open, h_group, change, hret. rewrite E.
  destruct (lookup P f) as [[l|a]|] eqn:L.
  - exists f, l. rewrite L. repeat split; auto.
  - exfalso. specialize (HO P nil (eq_sym (app_nil_r P))). unfold notD in HO. rewrite L in HO. exact HO.
  - destruct (put_ok P (Group nil) f NP L) as [f1 H1]. { intros q t r HP. apply (HO q (t :: r) HP). }
    rewrite H1. pose proof (put_same _ _ _ _ nil H1) as S1. rewrite app_nil_r in S1. cbn in S1. rewrite S1.
    exists f1, nil.
    assert (F1 : forall q, (forall r, P <> (q ++ r)%list) -> lookup q f1 = lookup q f).
    { intros q Hq. destruct (paths P q) as [A|[(t & r & H)|(r & H)]].
      - apply (put_apart _ _ _ _ _ H1 A).
      - destruct (Hq _ H).
      - subst q. rewrite (put_same _ _ _ _ r H1), lookup_app, L. destruct r as [|x r]; [|reflexivity].
        destruct (Hq nil). rewrite !app_nil_r. reflexivity. }
    repeat split; auto.
    intros q Hq. unfold notD. destruct (paths P q) as [A|[(t & r & H)|(r & H)]].
    + rewrite (put_apart _ _ _ _ _ H1 A). exact Hq.
    + destruct (put_prefix _ _ _ _ _ _ _ H1 H) as [l G]. rewrite G. exact I.
    + subst q. rewrite (put_same _ _ _ _ r H1). destruct r; exact I.
Qed.

Lemma rows_write : forall d n rows done todo f,
  lookup d f = Some (Dset (A2 (done ++ todo))) -> length todo = length rows ->
  (forall r, In r todo -> length r = n) -> (forall r, In r rows -> length r = n) ->
  exists f', (fix go (i : nat) (l : list (list R)) : h5 unit :=
     match l with nil => hret tt | r :: l' => _ <~ h_row d i r ;; go (S i) l' end) (length done) rows f = (Ok tt, f') /\
    lookup d f' = Some (Dset (A2 (done ++ map (map f32) rows))) /\ frame d f f' /\ (forall q, notD f q -> notD f' q).
Proof.
  intros d n rows. induction rows as [|r rows IH]; intros done todo f L Len Ht Hr.
  - destruct todo; [|discriminate]. exists f. cbn. repeat split; auto.
  - destruct todo as [|o todo]; [discriminate|]. injection Len as Len.
    assert (Lr : length r = length o) by (rewrite (Ht o), (Hr r); cbn; auto).
    assert (Hrow : exists f1, h_row d (length done) r f = (Ok tt, f1) /\ lookup d f1 = Some (Dset (A2 ((done ++ [map f32 r]) ++ todo)))
       /\ frame d f f1 /\ forall q, notD f q -> notD f1 q).
    { unfold h_row, change. rewrite L. unfold getitem. rewrite nth_error_app2, Nat.sub_diag by lia. cbn [nth_error bind].
      rewrite Lr, Nat.eqb_refl. cbn [bind]. unfold setitem. rewrite app_length. cbn [length].
      destruct (Nat.ltb_spec (length done) (length done + S (length todo))) as [_|Q]; [|lia]. cbn [bind].
      replace (firstn (length done) (done ++ o :: todo)) with done
        by (rewrite firstn_app, firstn_all, Nat.sub_diag; cbn; rewrite app_nil_r; reflexivity).
      replace (skipn (S (length done)) (done ++ o :: todo)) with todo
        by (rewrite skipn_app, skipn_all2 by lia; replace (S (length done) - length done)%nat with 1%nat by lia; reflexivity).
      destruct (replace_ok d (Dset (A2 (done ++ map f32 r :: todo))) f) as [f1 H1]; [congruence|]. rewrite H1. exists f1.
      pose proof (replace_same _ _ _ _ nil H1) as S1. rewrite app_nil_r in S1. cbn in S1. rewrite S1, <- app_assoc. cbn.
      repeat split; auto.
      - intros q A. apply (replace_apart _ _ _ _ _ H1 A).
      - intros q Hq. unfold notD. destruct (paths d q) as [A|[(t & x & H)|(x & H)]].
        + rewrite (replace_apart _ _ _ _ _ H1 A). exact Hq.
        + destruct (replace_prefix _ _ _ _ _ _ _ H1 H) as [l G]. rewrite G. exact I.
        + subst q. rewrite (replace_same _ _ _ _ x H1). destruct x; cbn; [|exact I].
          rewrite app_nil_r in Hq. unfold notD in Hq. rewrite L in Hq. exact Hq. }
    destruct Hrow as (f1 & H1 & L1 & F1 & N1).
    destruct (IH (done ++ [map f32 r])%list todo f1 L1 Len) as (f' & H2 & L2 & F2 & N2).
    { intros x Hx. apply Ht. right. exact Hx. } { intros x Hx. apply Hr. right. exact Hx. }
    exists f'. split; [|split; [|split]].
    + cbn. unfold hbind. rewrite H1. rewrite app_length in H2. cbn in H2. rewrite Nat.add_1_r in H2. exact H2.
    + rewrite L2, <- app_assoc. reflexivity.
    + intros q A. rewrite F2, F1 by exact A. reflexivity.
    + auto.
Qed.

(** What a write does to a file where nothing stands in the way. *)
Lemma write_effect : forall dest P s n rows f,
  resolve nil dest = P -> P <> nil -> plain s -> open_to P f -> length rows = 6%nat -> (forall r, In r rows -> length r = n) ->
  exists f', write_record dest (Ok s) n rows f = (Ok tt, f') /\
    lookup (P ++ [s]) f' = Some (Dset (A2 (map (map f32) rows))) /\
    (forall q, (forall r, P <> (q ++ r)%list) -> (forall r, q <> ((P ++ [s]) ++ r)%list) -> lookup q f' = lookup q f) /\
    (forall q, notD f q -> q <> (P ++ [s])%list -> notD f' q).
Proof.
  intros dest P s n rows f E NP Ps HO L6 Hr.
  destruct (ensure_group dest P f E NP HO) as (f1 & l1 & H1 & G1 & F1 & N1).
  unfold write_record.
  assert (Hc : exists f2, h_clear P s f1 = (Ok tt, f2) /\ lookup (P ++ [s]) f2 = None /\ frame (P ++ [s]) f1 f2 /\
     (exists l, lookup P f2 = Some (Group l)) /\ (forall q, notD f1 q -> notD f2 q)).
  { unfold h_clear, h_contains, h_del, hbind, change, hret. rewrite (resolve_plain P s Ps).
    destruct (lookup (P ++ [s]) f1) as [m|] eqn:Lm.
    - destruct (remove_ok (P ++ [s]) f1) as [f2 H2]; [destruct P; discriminate|congruence|]. rewrite H2. exists f2.
      pose proof (remove_same _ _ _ nil H2) as S2. rewrite app_nil_r in S2. repeat split; auto.
      + intros q A. apply (remove_apart _ _ _ _ H2 A).
      + destruct (remove_prefix _ _ _ P s nil H2 eq_refl) as [l G]. eauto.
      + intros q Hq. unfold notD. destruct (paths (P ++ [s]) q) as [A|[(t & x & H)|(x & H)]].
        * rewrite (remove_apart _ _ _ _ H2 A). exact Hq.
        * destruct (remove_prefix _ _ _ _ _ _ H2 H) as [l G]. rewrite G. exact I.
        * subst q. rewrite (remove_same _ _ _ x H2). exact I.
    - exists f1. repeat split; eauto. }
  destruct Hc as (f2 & H2 & L2 & F2 & (l2 & G2) & N2).
  destruct (put_ok (P ++ [s]) (Dset (A2 (repeat (repeat 0 n) 6))) f2) as [f3 H3]; [destruct P; discriminate|exact L2| |].
  { intros q t r HP. destruct (paths P q) as [A|[(t' & x & H)|(x & H)]].
    - exfalso. clear - A HP. assert (A' : apart (P ++ [s]) q) by (clear HP; induction A; cbn; constructor; assumption).
      rewrite HP in A'. clear - A'. induction q as [|y q IH]; [inversion A'|]. inversion A'; subst; auto.
    - rewrite H in G2. eapply notD_prefix. exact G2.
    - subst q. destruct x as [|y x].
      + rewrite app_nil_r. unfold notD. rewrite G2. exact I.
      + exfalso. apply (f_equal (@length string)) in HP. rewrite !app_length in HP. cbn in HP. lia. }
  pose proof (put_same _ _ _ _ nil H3) as S3. rewrite app_nil_r in S3. cbn [lookup] in S3.
  destruct (rows_write (P ++ [s]) n rows nil (repeat (repeat 0 n) 6) f3 S3) as (f' & H4 & L4 & F4 & N4).
  { rewrite L6. apply repeat_length. }
  { intros r Hi. apply repeat_spec in Hi. subst r. apply repeat_length. }
  { exact Hr. }
  exists f'. split; [|split; [|split]].
  - unfold h_contains in H1 |- *. unfold hbind at 1. unfold hbind at 1 in H1.
    set (m := if match lookup (resolve nil dest) f with Some _ => true | None => false end then hret tt else h_group nil dest) in *.
    unfold hbind at 1. unfold hbind at 1 in H1. destruct (m f) as [[u|e] fx]; [|discriminate H1].
    unfold hbind at 1. rewrite H1. unfold hbind at 1. unfold hbind at 1. rewrite H2. unfold hbind at 1.
    unfold h_data, hbind at 1, change, hret at 1. rewrite (resolve_plain P s Ps), H3. exact H4.
  - exact L4.
  - intros q Hq1 Hq2.
    assert (A : apart (P ++ [s]) q).
    { destruct (paths (P ++ [s]) q) as [A|[(t & x & H)|(x & H)]]; [exact A| |destruct (Hq2 _ H)].
      exfalso. destruct (paths P q) as [A|[(t' & x' & H')|(x' & H')]].
      - assert (A' : apart (P ++ [s]) q) by (clear - A; induction A; cbn; constructor; assumption).
        rewrite H in A'. clear - A'. induction q as [|y q IH]; [inversion A'|]. inversion A'; subst; auto.
      - destruct (Hq1 _ H').
      - subst q. apply (f_equal (@length string)) in H. rewrite !app_length in H. cbn in H.
        destruct x' as [|y x']; [destruct (Hq1 nil); rewrite !app_nil_r; reflexivity|cbn in H; lia]. }
    rewrite F4 by exact A. rewrite (put_apart _ _ _ _ _ H3 A), F2 by exact A. apply F1. exact Hq1.
  - intros q Hq Ne. apply N4. unfold notD. destruct (paths (P ++ [s]) q) as [A|[(t & x & H)|(x & H)]].
    + rewrite (put_apart _ _ _ _ _ H3 A). apply N2, N1, Hq.
    + destruct (put_prefix _ _ _ _ _ _ _ H3 H) as [l G]. rewrite G. exact I.
    + subst q. rewrite (put_same _ _ _ _ x H3). destruct x; [destruct Ne; apply app_nil_r|exact I].
Qed.
