From Coquelicot Require Import Coquelicot.
From Verif Require Import Py PyLemmas MeshModel MeshSpec.

(* ------------------------------------------------------------------ moving flag *)
Ltac inv_binds :=
  repeat match goal with
  | H : bind _ _ = Ok _ |- _ => apply bind_ok in H as (? & ? & H)
  | H : Ok _ = Ok _ |- _ => injection H; clear H; intro H; subst
  | H : Err _ = Ok _ |- _ => discriminate H
  | H : (if ?b then _ else _) = Ok _ |- _ => destruct b eqn:?
  | H : match ?x with _ => _ end = Ok _ |- _ => destruct x eqn:?
  | H : context [let _ := _ in _] |- _ => cbv zeta in H
  end.

Lemma simple_moving_init_moving c s s' : simple_moving_init c s = Ok s' -> moving s' = moving s.
Proof. unfold simple_moving_init. intro H. inv_binds; cbn; destruct (slab c), (sphere c); reflexivity. Qed.
Lemma square_derivs_moving c k s s' : square_derivs c k s = Ok s' -> moving s' = moving s.
Proof. unfold square_derivs. intro H. inv_binds; reflexivity. Qed.
Ltac use_derivs :=
  match goal with H : square_derivs _ _ _ = Ok _ |- _ => apply square_derivs_moving in H; exact H end.
Lemma thin_leg_moving c s s' : thin_square_init_legendre c s = Ok s' -> moving s' = moving s.
Proof. unfold thin_square_init_legendre. intro H. inv_binds. use_derivs. Qed.
Lemma thin_moving c s s' : thin_square_init c s = Ok s' -> moving s' = moving s.
Proof. unfold thin_square_init. intro H. inv_binds. use_derivs. Qed.
Lemma simple_thick_moving c s s' : simple_thick_square_init c s = Ok s' -> moving s' = moving s.
Proof. unfold simple_thick_square_init. intro H. inv_binds. use_derivs. Qed.
Lemma thick_square_moving_moving c s s' : thick_square_moving_init c s = Ok s' -> moving s' = moving s.
Proof. unfold thick_square_moving_init. intro H. inv_binds. reflexivity. Qed.
Lemma shell_moving c s s' : shell_source c s = Ok s' -> moving s' = moving s.
Proof. unfold shell_source. intro H. inv_binds. reflexivity. Qed.
Lemma boundary_moving c s s' : boundary_source_init c s = Ok s' -> moving s' = moving s.
Proof. unfold boundary_source_init. intro H. inv_binds. reflexivity. Qed.
Lemma thick_gauss_moving c s s' : thick_gaussian_static_init c s = Ok s' -> moving s' = moving s.
Proof. unfold thick_gaussian_static_init. intro H. apply bind_ok in H as (r & _ & H). injection H as <-. reflexivity. Qed.

Lemma init_dispatch_moving c s s' : init_dispatch c s = Ok s' -> moving s' = moving s.
Proof.
  unfold init_dispatch. intro H. apply bind_ok in H as (s1 & H1 & H).
  assert (E1 : moving s1 = moving s).
  { destruct (st_is c 0 1 || st_is c 0 2); [now apply simple_moving_init_moving in H1|].
    injection H1 as <-. reflexivity. }
  rewrite <- E1. clear H1 E1.
  destruct (negb (thick c)).
  - destruct (st_is c 3 1 || st_is c 5 1); [now apply simple_moving_init_moving in H|].
    destruct (st_is c 1 1 || st_is c 2 1).
    + destruct (slab c); [now apply thin_leg_moving in H|now apply shell_moving in H].
    + destruct (all_zero c); [now apply boundary_moving in H|]. now injection H as <-.
  - destruct (st_is c 3 1 || st_is c 5 1).
    + destruct (moving s1) eqn:E; rewrite <- E;
        [now apply simple_moving_init_moving in H|now apply thick_gauss_moving in H].
    + destruct (st_is c 1 1 || st_is c 2 1 || negb (st_is c 0 0)); [|now injection H as <-].
      apply bind_ok in H as (s2 & H2 & H).
      assert (E2 : moving s2 = moving s1).
      { destruct (move_func c =? 0)%nat; [now apply simple_moving_init_moving in H2|]. now injection H2 as <-. }
      rewrite <- E2. destruct (moving s2) eqn:E; rewrite <- E.
      * destruct (move_func c) as [|[|[|?]]]; try (now injection H as <-);
          [now apply thick_square_moving_moving in H|now apply thin_moving in H].
      * destruct (move_func c) as [|[|[|?]]]; try (now injection H as <-).
        -- now apply simple_thick_moving in H.
        -- destruct (negb (st_is c 0 0)); [now apply simple_moving_init_moving in H|now apply thin_moving in H].
Qed.

(* ------------------------------------------------------------------ static mesh *)
Lemma moves_static c ts s : moving s = false -> moves c ts s = Ok s.
Proof.
  intro H. induction ts as [|t ts IH]; auto. cbn [moves].
  unfold move at 1. rewrite H. exact IH.
Qed.

Lemma init_moving c s : init c = Ok s -> moving s = moving_flag c.
Proof.
  unfold init. destruct (_ <? _)%nat; [discriminate|]. intro H.
  apply bind_ok in H as (s1 & H1 & H). apply init_dispatch_moving in H1. cbn in H1.
  cbv zeta in H. cbn [moving set_Dconst] in H. rewrite H1 in H.
  destruct (moving_flag c) eqn:E.
  - injection H as <-. cbn. congruence.
  - apply bind_ok in H as (s3 & _ & H). injection H as <-. reflexivity.
Qed.

Lemma init_static_zero c s : moving_flag c = false -> init c = Ok s -> forall d, In d (Dedges s) -> d = 0.
Proof.
  intro Hm. unfold init. destruct (_ <? _)%nat; [discriminate|]. intro H.
  apply bind_ok in H as (s1 & H1 & H). apply init_dispatch_moving in H1. cbn in H1.
  cbv zeta in H. cbn [moving set_Dconst] in H. rewrite H1, Hm in H.
  apply bind_ok in H as (s3 & _ & H). injection H as <-. cbn.
  intros d Hd. unfold vscale in Hd. apply in_map_iff in Hd as (x & <- & _). lra.
Qed.

Lemma static_mesh_lemma c s ts :
  moving_flag c = false -> init c = Ok s ->
  moves c ts s = Ok s /\ (forall d, In d (Dedges s) -> d = 0).
Proof.
  intros Hm Hi. split; [|eapply init_static_zero; eauto].
  apply moves_static. rewrite (init_moving _ _ Hi). exact Hm.
Qed.

(* ------------------------------------------------------------------ static = moving at tfinal *)
Definition rmap {A B} (f : A -> B) (r : result A) : result B :=
  match r with Ok a => Ok (f a) | Err e => Err e end.
Definition rsame (b b' : bool) (r r' : result state) : Prop :=
  match r, r' with Ok s, Ok s' => s' = set_moving s b' /\ s = set_moving s' b | Err e, Err e' => e = e' | _, _ => False end.

Ltac step_bind :=
  match goal with
  | |- context [bind ?r ?f] => destruct r eqn:?; cbn [bind]
  end.

Lemma set_moving_idem s : set_moving s (moving s) = s.
Proof. destruct s; reflexivity. Qed.

Lemma simple_moving_flag c b s b' :
  simple_moving_init (with_moving c b) (set_moving s b') = rmap (fun x => set_moving x b') (simple_moving_init c s).
Proof.
  unfold simple_moving_init. cbv zeta. cbn [slab sphere N_space x0 with_moving].
  change (st_is (with_moving c b)) with (st_is c). change (speed (with_moving c b)) with (speed c).
  destruct (slab c); [|destruct (sphere c)]; cbn [edges set_edges set_edges0 set_moving negb andb];
    (destruct (getneg _ _) as [last|]; cbn [bind rmap]; [|reflexivity]);
    (destruct (vdivs _ _); cbn [bind rmap]; [|reflexivity]);
    destruct (st_is c 0 2); reflexivity.
Qed.

Lemma square_derivs_flag c b k s b' :
  square_derivs (with_moving c b) k (set_moving s b') = rmap (fun x => set_moving x b') (square_derivs c k s).
Proof.
  unfold square_derivs, with_moving; cbn.
  repeat (match goal with |- context [bind ?r ?f] => destruct r; cbn end); auto.
Qed.

Lemma thin_leg_flag c b s b' :
  thin_square_init_legendre (with_moving c b) (set_moving s b') =
  rmap (fun x => set_moving x b') (thin_square_init_legendre c s).
Proof.
  unfold thin_square_init_legendre. cbn [N_space with_moving]. destruct (N_space c =? 2)%nat; [reflexivity|].
  cbn [x0 thick_quad thick_quad_edge with_moving]. cbv zeta.
  set (e := _ ++ _). change (set_edges (set_moving s b') e) with (set_moving (set_edges s e) b').
  change (speed (with_moving c b)) with (speed c).
  rewrite square_derivs_flag. destruct (square_derivs _ _ _); reflexivity.
Qed.

Lemma shell_flag c b s b' :
  shell_source (with_moving c b) (set_moving s b') = rmap (fun x => set_moving x b') (shell_source c s).
Proof.
  unfold shell_source. cbn [N_space x0 with_moving]. cbv zeta. destruct (negb _); [reflexivity|].
  change (speed (with_moving c b)) with (speed c).
  repeat (match goal with |- context [bind ?r ?f] => destruct r; cbn end); auto.
Qed.

Lemma boundary_flag c b s b' : fake_sedov_v c = 0 ->
  boundary_source_init (with_moving c b) (set_moving s b') = rmap (fun x => set_moving x b') (boundary_source_init c s).
Proof.
  intro H. unfold boundary_source_init. cbv zeta. cbn [fake_sedov_v with_moving moving set_moving x0 tfinal N_space].
  rewrite H.
  replace (if b' then 0 else 0) with 0 by (destruct b'; auto).
  replace (if moving s then 0 else 0) with 0 by (destruct (moving s); auto).
  destruct (vsub _ _); cbn [bind rmap]; [|reflexivity].
  destruct (vdivs _ _); cbn [bind rmap]; reflexivity.
Qed.

Lemma dispatch_flag c b s b' :
  thick c = false -> (all_zero c = true -> fake_sedov_v c = 0) ->
  init_dispatch (with_moving c b) (set_moving s b') = rmap (fun x => set_moving x b') (init_dispatch c s).
Proof.
  intros Ht Hz. unfold init_dispatch. cbn [thick with_moving]. rewrite Ht. cbn [negb].
  change (st_is (with_moving c b)) with (st_is c).
  assert (E : (if st_is c 0 1 || st_is c 0 2 then simple_moving_init (with_moving c b) (set_moving s b') else Ok (set_moving s b'))
   = rmap (fun x => set_moving x b') (if st_is c 0 1 || st_is c 0 2 then simple_moving_init c s else Ok s)).
  { destruct (_ || _); [apply simple_moving_flag|reflexivity]. }
  rewrite E. clear E. destruct (if st_is c 0 1 || st_is c 0 2 then _ else _) as [s1|e]; cbn [rmap bind]; auto.
  destruct (st_is c 3 1 || st_is c 5 1); [apply simple_moving_flag|].
  destruct (st_is c 1 1 || st_is c 2 1).
  - cbn [slab with_moving]. destruct (slab c); [apply thin_leg_flag|apply shell_flag].
  - change (all_zero (with_moving c b)) with (all_zero c).
    destruct (all_zero c) eqn:E0; [apply boundary_flag; auto|reflexivity].
Qed.

Lemma move_with_moving c b t s : move (with_moving c b) t s = move c t s.
Proof. reflexivity. Qed.

Lemma static_final_lemma c s :
  thick c = false -> (all_zero c = true -> fake_sedov_v c = 0) ->
  init (with_moving c false) = Ok s ->
  exists s1 s2, init (with_moving c true) = Ok s1 /\
    move (with_moving c true) (tfinal c) s1 = Ok s2 /\ edges s2 = edges s.
Proof.
  intros Ht Hz. unfold init. cbn [source_type with_moving]. destruct (_ <? _)%nat; [discriminate|].
  pose (cc := with_moving c true).
  assert (E : init_dispatch (with_moving c true) (state0 (with_moving c true)) =
     rmap (fun x => set_moving x true) (init_dispatch (with_moving c false) (state0 (with_moving c false)))).
  { change (with_moving c true) with (with_moving (with_moving c false) true) at 1.
    change (state0 (with_moving c true)) with (set_moving (state0 (with_moving c false)) true).
    apply dispatch_flag; auto. }
  rewrite E. clear E.
  destruct (init_dispatch (with_moving c false) (state0 (with_moving c false))) as [s1|e] eqn:Es; cbn [rmap bind]; [|discriminate].
  pose proof (init_dispatch_moving _ _ _ Es) as Em. cbn in Em.
  cbn [moving set_Dconst set_moving]. cbv zeta. cbn [moving set_Dconst set_moving]. rewrite Em.
  intro H. apply bind_ok in H as (s3 & H3 & H). injection H as <-.
  eexists. exists s3. split; [reflexivity|]. split; [|reflexivity].
  rewrite !move_with_moving in *. exact H3.
Qed.
