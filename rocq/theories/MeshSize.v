(** Edge counts of the slab square mesh. *)
From Verif Require Import Py PyLemmas MeshModel MeshSpec MeshProofs.

Lemma slice_length {A} (l : list A) a b : length (slice l a b) = Nat.min (b - a) (length l - a).
Proof. unfold slice. now rewrite firstn_length, skipn_length. Qed.

Lemma setslice_length {A} (xs ys zs : list A) a b :
  setslice xs a b ys = Ok zs -> (a <= length xs)%nat ->
  length zs = length xs /\ (length ys = Nat.min (b - a) (length xs - a) \/ length ys = 1%nat).
Proof.
  unfold setslice. rewrite slice_length. intros H Ha.
  destruct (Nat.eqb_spec (length ys) (Nat.min (b - a) (length xs - a))) as [E|E].
  - injection H as <-. rewrite !app_length, firstn_length, skipn_length. split; [lia|auto].
  - destruct ys as [|y [|y' ys]]; try discriminate. injection H as <-.
    rewrite !app_length, firstn_length, skipn_length, repeat_length. split; [lia|auto].
Qed.
Lemma fillslice_length {A} (xs : list A) a b v :
  (a <= length xs)%nat -> length (fillslice xs a b v) = length xs.
Proof.
  intro H. unfold fillslice. rewrite !app_length, firstn_length, skipn_length, repeat_length, slice_length. lia.
Qed.
Lemma vdivs_length xs k ys : vdivs xs k = Ok ys -> length ys = length xs.
Proof.
  unfold vdivs. destruct xs; [intro H; injection H as <-; reflexivity|].
  destruct (Req_EM_T k 0); [discriminate|]. intro H; injection H as <-. simpl; now rewrite map_length.
Qed.

Lemma square_derivs_length c kap s s' :
  length (Dedges s) = (N_space c + 1)%nat ->
  length (edges s) = (2 * (N_space c / 4) + N_space c / 2 + 1)%nat ->
  square_derivs c kap s = Ok s' ->
  edges s' = edges s /\ edges0 s' = edges0 s /\ moving s' = moving s /\
  length (Dedges s') = (N_space c + 1)%nat /\
  (N_space c - N_space c / 2 - N_space c / 4 = N_space c / 4 \/ N_space c / 4 = 1)%nat.
Proof.
  intros HD HE. unfold square_derivs. cbv zeta. intro H. inv_binds.
  rewrite Nat.div_div in * by lia. replace (2 * 2)%nat with 4%nat in * by lia.
  set (n := N_space c) in *. set (a := (n / 4)%nat) in *. set (b := (n / 2)%nat) in *.
  assert (Hb : (a + b <= n)%nat).
  { unfold a, b. pose proof (Nat.div_mod n 4). pose proof (Nat.div_mod n 2).
    pose proof (Nat.mod_upper_bound n 4). pose proof (Nat.mod_upper_bound n 2). lia. }
  match goal with H1 : setslice (Dedges s) _ _ _ = Ok ?d1, H2 : setslice (fillslice ?d1 _ _ _) _ _ _ = Ok ?d3 |- _ =>
    apply setslice_length in H1 as [L1 _]; [|lia];
    apply setslice_length in H2 as [L2 C2]; rewrite ?fillslice_length in * by lia; [|lia] end.
  cbn [edges edges0 Dedges moving set_Dedges]. rewrite vscale_length, L2. repeat split; auto; [lia|].
  match goal with H3 : vdivs (vshift (slice_from _ _) _) _ = Ok _ |- _ => apply vdivs_length in H3;
     rewrite vshift_length in H3; unfold slice_from in H3; rewrite skipn_length in H3 end.
  lia.
Qed.

Lemma square_dispatch_length c s :
  thin_square_slab c -> st_is c 1 1 || st_is c 2 1 = true ->
  length (thick_quad c) = (N_space c / 2 + 1)%nat -> length (thick_quad_edge c) = (N_space c / 4 + 1)%nat ->
  init_dispatch c (state0 c) = Ok s ->
  length (edges s) = (2 * (N_space c / 4) + N_space c / 2 + 1)%nat /\
  edges0 s = edges s /\ Dedges_const s = Dedges s /\
  length (Dedges s) = (N_space c + 1)%nat /\ moving s = moving_flag c /\
  (N_space c - N_space c / 2 - N_space c / 4 = N_space c / 4 \/ N_space c / 4 = 1)%nat.
Proof.
  intros (Hl & Ht & Hs & H01 & H02 & H3 & H5) H12 Lq Lqe.
  unfold init_dispatch. rewrite H01, H02, Ht, H3, H5, H12, Hs. cbn [orb negb bind].
  unfold thin_square_init_legendre. destruct (N_space c =? 2)%nat; [discriminate|]. cbv zeta.
  intro H. apply bind_ok in H as (s1 & H1 & H). injection H as <-.
  set (e := _ ++ _) in H1.
  assert (Le : length e = (2 * (N_space c / 4) + N_space c / 2 + 1)%nat).
  { unfold e, drop_last. rewrite !app_length, !removelast_length, !map_length, Lq, Lqe. lia. }
  apply square_derivs_length in H1 as (E1 & E2 & E3 & E4 & E5).
  - cbn [edges edges0 Dedges Dedges_const moving set_edges0 set_Dconst set_edges state0] in *.
    rewrite E1. repeat split; auto.
  - cbn. unfold zeros. now rewrite repeat_length.
  - exact Le.
Qed.

Lemma div_facts n : (n mod 4 <> 0)%nat -> (n <> 0)%nat /\ (2 * (n / 4) + n / 2 < n)%nat /\
   (n / 4 < n - n / 2 - n / 4)%nat.
Proof.
  intro H. pose proof (Nat.div_mod n 4). pose proof (Nat.div_mod n 2).
  pose proof (Nat.mod_upper_bound n 4). pose proof (Nat.mod_upper_bound n 2).
  destruct (Nat.eq_dec n 0); [subst; cbn in H; lia|]. lia.
Qed.

Lemma square_bad_size_lemma c t :
  square_ic_slab c -> finite_domain c = false ->
  length (thick_quad c) = (N_space c / 2 + 1)%nat -> length (thick_quad_edge c) = (N_space c / 4 + 1)%nat ->
  (N_space c mod 4 <> 0)%nat ->
  exists e, (s <- init c ;; move c t s) = Err e.
Proof.
  intros (Hc & H1) Hf Lq Lqe Hn. destruct (div_facts _ Hn) as (Hn0 & Hlt & Hne).
  destruct (s <- init c ;; move c t s) as [s'|e] eqn:E; [|eauto]. exfalso.
  apply bind_ok in E as (s0 & Hi & Hmv). unfold init in Hi.
  destruct (_ <? _)%nat; [discriminate|]. apply bind_ok in Hi as (s1 & Hd & Hi).
  apply square_dispatch_length in Hd as (L1 & L2 & L3 & L4 & L5 & L6); auto; [|now rewrite H1].
  assert (Hadd : forall u s2, moving s2 = true -> edges0 s2 = edges0 s1 -> Dedges_const s2 = Dedges s1 ->
     exists e, move c u s2 = Err e).
  { intros u s2 Hm2 He2 Hd2. destruct Hc as (_ & _ & _ & H01 & H02 & _ & _).
    unfold move. rewrite Hm2, H01, H02, H1, Hf. cbn [orb andb bind].
    unfold advance. rewrite He2, Hd2, L2.
    destruct (vadd _ _) as [zs|e] eqn:Ev; cbn [bind]; [|eauto]. exfalso.
    apply vop_ok_length in Ev as [Ev _]. rewrite vscale_length, L1, L4 in Ev. lia. }
  cbv zeta in Hi. cbn [moving set_Dconst] in Hi. destruct (moving s1) eqn:Em.
  - injection Hi as <-. destruct (Hadd t (set_Dconst s1 (Dedges s1))) as [e He]; auto. congruence.
  - apply bind_ok in Hi as (s3 & Hi & _).
    destruct (Hadd (tfinal c) (set_moving (set_Dconst s1 (Dedges s1)) true)) as [e He]; auto. congruence.
Qed.

Lemma N2_lemma c t : square_ic_slab c -> N_space c = 2%nat -> (s <- init c ;; move c t s) = Err AssertionError.
Proof.
  intros ((Hl & Ht & Hs & H01 & H02 & H3 & H5) & H1) HN.
  unfold init. destruct (Nat.ltb_spec (length (source_type c)) 6); [lia|].
  unfold init_dispatch. rewrite H01, H02, Ht, H3, H5, H1, Hs. cbn [orb negb bind].
  unfold thin_square_init_legendre. rewrite HN. reflexivity.
Qed.
