(** C177: the first mesh (mesh_old.py). *)
From Coquelicot Require Import Coquelicot.
From Verif Require Import Py PyLemmas MeshSpec OldMeshModel.

(** Edge [i] and its reported speed after a call of move at time [t]. *)
Definition edge_at (a : old_args) (o : old_mesh) (i : nat) (t : R) : R :=
  match old_move a o t with Ok o' => nth i (om_edges o') 0 | Err _ => 0 end.
Definition speed_at (a : old_args) (o : old_mesh) (i : nat) (t : R) : R :=
  match old_move a o t with Ok o' => nth i (om_D o') 0 | Err _ => 0 end.

(** Same lengths, as __init__ leaves them when it succeeds on a mesh that moves. *)
Definition sized (n : nat) (o : old_mesh) : Prop :=
  length (om_edges0 o) = n /\ length (om_D o) = n /\ exists Dc, om_Dc o = Some Dc /\ length Dc = n.

(** The amplitude a moving mesh multiplies its constant velocities by. *)
Definition reach (a : old_args) (t : R) : R := if oa_mt4 a then 8 * old_sqrt t else t.

Lemma old_sqrt_pos t : 0 < old_sqrt t.
Proof.
  unfold old_sqrt. case_eq (Rgtb t (1 / 10 ^ 10)); intro H; apply sqrt_lt_R0.
  - unfold Rgtb, Rltb in H. destruct (Rlt_dec (1 / 10 ^ 10) t); [|discriminate]. lra.
  - lra.
Qed.

Lemma old_sqrt_late t : 1 / 10 ^ 10 < t -> old_sqrt t = sqrt t.
Proof. intro H. unfold old_sqrt, Rgtb. now rewrite Rltb_true. Qed.

Lemma list_tab l : l = tab (length l) (fun i => nth i l 0).
Proof. apply list_is_tab; auto. Qed.

Lemma move_sized a o n t : oa_moving a = true -> sized n o -> (oa_mt4 a = false -> om_Dc o = Some (om_D o)) ->
  exists o' Dc, om_Dc o = Some Dc /\ old_move a o t = Ok o' /\ length (om_edges o') = n /\ sized n o' /\
    om_edges0 o' = om_edges0 o /\ om_Dc o' = om_Dc o /\ (oa_mt4 a = false -> om_D o' = om_D o) /\
    (forall i, (i < n)%nat -> nth i (om_edges o') 0 = nth i (om_edges0 o) 0 + nth i Dc 0 * reach a t) /\
    (forall i, (i < n)%nat -> nth i (om_D o') 0 = if oa_mt4 a then nth i Dc 0 * 4 / old_sqrt t else nth i Dc 0).
Proof.
  intros Mv (L0 & L1 & Dc & E & L2) Q. unfold old_move, reach. rewrite Mv.
  destruct (oa_mt4 a) eqn:M4; cbn [negb].
  - rewrite E. rewrite (list_tab (om_edges0 o)), (list_tab Dc), L0, L2.
    rewrite !vscale_tab, vdivs_tab by (pose proof (old_sqrt_pos t); lra).
    cbn [bind]. unfold vadd. rewrite vop_tab. cbn [bind].
    eexists _, _. split; [reflexivity|]. split; [reflexivity|]. cbn [om_edges om_edges0 om_D om_Dc].
    rewrite tab_length. split; [reflexivity|]. split.
    { unfold sized. cbn. rewrite !tab_length. repeat split. eexists. split; [reflexivity|]. apply tab_length. }
    split; [reflexivity|]. split; [reflexivity|]. split; [discriminate|].
    split; intros i Hi; rewrite !nth_tab by assumption.
    + match goal with |- @eq _ ?p ?q => change (@eq R p q) end. rewrite (Rmult_assoc (nth i Dc 0)). reflexivity.
    + pose proof (old_sqrt_pos t). field. lra.
  - specialize (Q eq_refl).
    rewrite Q in E. assert (Dc = om_D o) by (now injection E). subst Dc.
    rewrite (list_tab (om_edges0 o)), (list_tab (om_D o)), L0, L1.
    rewrite !vscale_tab. unfold vadd. rewrite vop_tab. cbn [bind].
    eexists _, (om_D o). split; [exact Q|]. split; [reflexivity|]. cbn [om_edges om_edges0 om_D om_Dc].
    rewrite tab_length. split; [reflexivity|]. split.
    { unfold sized. cbn. rewrite !tab_length. repeat split. exists (om_D o). auto. }
    split; [reflexivity|]. split; [reflexivity|]. split; [reflexivity|].
    split; intros i Hi; rewrite !nth_tab by assumption; reflexivity.
Qed.

(** The reported speed is the derivative of the position, at all times for the linear motion and
    after 1e-10 for the motion with the square root of the time. *)
Theorem C177_speed_is_derivative a o n i t :
  oa_moving a = true -> sized n o -> (oa_mt4 a = false -> om_Dc o = Some (om_D o)) -> (i < n)%nat ->
  (oa_mt4 a = true -> 1 / 10 ^ 10 < t) ->
  is_derive (edge_at a o i) t (speed_at a o i t).
Proof.
  intros Mv Sz Q Hi Ht.
  destruct Sz as (L0 & L1 & Dc & E & L2).
  assert (Sz : sized n o) by (repeat split; eauto).
  assert (F : forall u, edge_at a o i u = nth i (om_edges0 o) 0 + nth i Dc 0 * reach a u).
  { intro u. unfold edge_at. destruct (move_sized a o n u Mv Sz Q) as (o' & Dc' & E' & -> & _ & _ & _ & _ & _ & H & _).
    rewrite E in E'. injection E' as <-. now apply H. }
  assert (G : speed_at a o i t = if oa_mt4 a then nth i Dc 0 * 4 / old_sqrt t else nth i Dc 0).
  { unfold speed_at. destruct (move_sized a o n t Mv Sz Q) as (o' & Dc' & E' & -> & _ & _ & _ & _ & _ & _ & H).
    rewrite E in E'. injection E' as <-. now apply H. }
  rewrite G. unfold reach in F. destruct (oa_mt4 a) eqn:M4.
  - specialize (Ht eq_refl).
    apply (is_derive_ext_loc (fun u => nth i (om_edges0 o) 0 + nth i Dc 0 * (8 * sqrt u))).
    + assert (Hp : 0 < t - 1 / 10 ^ 10) by lra. exists (mkposreal _ Hp). intros u Hu.
      rewrite F, old_sqrt_late; [reflexivity|].
      change (Rabs (u - t) < t - 1 / 10 ^ 10) in Hu. apply Rabs_def2 in Hu. lra.
    + rewrite old_sqrt_late by assumption.
      assert (0 < t) by (assert (0 < 1 / 10 ^ 10) by lra; lra).
      assert (0 < sqrt t) by (now apply sqrt_lt_R0).
      auto_derive; [assumption|]. field. lra.
  - apply (is_derive_ext (fun u => nth i (om_edges0 o) 0 + nth i Dc 0 * u)).
    + intro u. now rewrite F.
    + auto_derive; auto. ring.
Qed.
Print Assumptions C177_speed_is_derivative.

(** Until 1e-10 the edges of the square root motion stand still while moving speeds are reported:
    the speed is the derivative of the position there only for an edge that never moves. *)
Theorem C177_early_speed a o n i t Dc :
  oa_moving a = true -> oa_mt4 a = true -> sized n o -> om_Dc o = Some Dc -> (i < n)%nat -> t < 1 / 10 ^ 10 ->
  is_derive (edge_at a o i) t 0 /\ speed_at a o i t = nth i Dc 0 * 4 / sqrt (1 / 10 ^ 10) /\
  (is_derive (edge_at a o i) t (speed_at a o i t) <-> nth i Dc 0 = 0).
Proof.
  intros Mv M4 Sz E Hi Ht.
  assert (Q : oa_mt4 a = false -> om_Dc o = Some (om_D o)) by congruence.
  assert (D0 : is_derive (edge_at a o i) t 0).
  { apply (is_derive_ext_loc (fun _ => nth i (om_edges0 o) 0 + nth i Dc 0 * (8 * sqrt (1 / 10 ^ 10)))).
    - assert (Hp : 0 < 1 / 10 ^ 10 - t) by lra. exists (mkposreal _ Hp). intros u Hu.
      change (Rabs (u - t) < 1 / 10 ^ 10 - t) in Hu. apply Rabs_def2 in Hu.
      unfold edge_at. destruct (move_sized a o n u Mv Sz Q) as (o' & Dc' & E' & -> & _ & _ & _ & _ & _ & H & _).
      rewrite E in E'. injection E' as <-. rewrite H by assumption. unfold reach. rewrite M4.
      unfold old_sqrt, Rgtb. rewrite Rltb_false by lra. reflexivity.
    - apply @is_derive_const. }
  assert (S : speed_at a o i t = nth i Dc 0 * 4 / sqrt (1 / 10 ^ 10)).
  { unfold speed_at. destruct (move_sized a o n t Mv Sz Q) as (o' & Dc' & E' & -> & _ & _ & _ & _ & _ & _ & H).
    rewrite E in E'. injection E' as <-. rewrite H by assumption. rewrite M4.
    unfold old_sqrt, Rgtb. rewrite Rltb_false by lra. reflexivity. }
  split; [exact D0|]. split; [exact S|].
  assert (P : 0 < sqrt (1 / 10 ^ 10)) by (apply sqrt_lt_R0; lra).
  split.
  - intro D1. pose proof (is_derive_unique _ _ _ D0) as U0. pose proof (is_derive_unique _ _ _ D1) as U1.
    rewrite U0 in U1. rewrite S in U1.
    assert (nth i Dc 0 * 4 = 0).
    { replace (nth i Dc 0 * 4) with (nth i Dc 0 * 4 / sqrt (1 / 10 ^ 10) * sqrt (1 / 10 ^ 10)) by (field; lra).
      rewrite <- U1. ring. }
    lra.
  - intro Z. rewrite S, Z. replace (0 * 4 / sqrt (1 / 10 ^ 10)) with 0 by (field; lra). exact D0.
Qed.
Print Assumptions C177_early_speed.

(** ** The linear mesh *)

Lemma linear_init N x0 v : (0 < N)%nat -> 0 < x0 ->
  old_linear N x0 v = Ok (OldMesh (linspace (- x0) x0 (N + 1)) (linspace (- x0) x0 (N + 1))
    (tab (N + 1) (fun i => v * (-1 + 2 * INR i / INR N))) (Some (tab (N + 1) (fun i => v * (-1 + 2 * INR i / INR N))))).
Proof.
  intros HN Hx. unfold old_linear. cbv zeta.
  assert (PN : 0 < INR N) by (apply lt_0_INR; lia).
  rewrite linspace_tab. replace (N + 1 - 1)%nat with N by lia.
  rewrite getneg_tab by lia. cbn [bind]. replace (N + 1 - 1)%nat with N by lia.
  replace (- x0 + INR N * ((x0 - - x0) / INR N)) with x0 by (field; lra).
  rewrite vdivs_tab by lra. cbn [bind]. rewrite vscale_tab.
  do 2 f_equal; [|f_equal]; apply list_is_tab; rewrite ?tab_length; auto; intros i Hi; rewrite nth_tab by assumption; field; lra.
Qed.

(** The moving mesh of move types 0 and 2 (and of two cells, whatever the move type): from -x0 to x0
    at first, all edges moving apart in proportion, the outermost at the speed [v] or, with the
    square root motion, at 4 v over the root of the time.  Calls of move do not accumulate. *)
Theorem C177_linear_mesh a ts t :
  oa_moving a = true -> (oa_mt0 a = true \/ oa_mt2 a = true \/ oa_N a = 2%nat) ->
  (0 < oa_N a)%nat -> 0 < oa_x0 a ->
  exists o o', old_init a = Ok o /\ old_moves a o (ts ++ [t]) = Ok o' /\ sized (oa_N a + 1) o /\
    length (om_edges o') = (oa_N a + 1)%nat /\
    (forall i, (i <= oa_N a)%nat -> nth i (om_edges o') 0 =
       (oa_x0 a + oa_v a * reach a t) * (-1 + 2 * INR i / INR (oa_N a))) /\
    (forall i, (i <= oa_N a)%nat -> nth i (om_D o') 0 =
       (if oa_mt4 a then 4 / old_sqrt t else 1) * oa_v a * (-1 + 2 * INR i / INR (oa_N a))) /\
    nth 0 (om_edges o') 0 = - (oa_x0 a + oa_v a * reach a t) /\
    nth (oa_N a) (om_edges o') 0 = oa_x0 a + oa_v a * reach a t /\
    (0 < oa_x0 a + oa_v a * reach a t -> increasing (om_edges o')).
Proof.
  intros Mv Mt HN Hx.
  assert (I : old_init a = old_linear (oa_N a) (oa_x0 a) (oa_v a)).
  { unfold old_init. rewrite Mv. destruct Mt as [->|[->| E2]]; cbn [orb]; rewrite ?Bool.orb_true_r; auto.
    rewrite E2. cbn. rewrite ?Bool.orb_true_r. reflexivity. }
  rewrite linear_init in I by assumption.
  set (D := tab (oa_N a + 1) (fun i => oa_v a * (-1 + 2 * INR i / INR (oa_N a)))) in I.
  set (L := linspace (- oa_x0 a) (oa_x0 a) (oa_N a + 1)) in I.
  eexists.
  assert (H : forall ts o, om_edges0 o = L -> sized (oa_N a + 1) o -> om_Dc o = Some D ->
     (oa_mt4 a = false -> om_Dc o = Some (om_D o)) ->
     exists o', old_moves a o (ts ++ [t]) = Ok o' /\ length (om_edges o') = (oa_N a + 1)%nat /\
      (forall i, (i < oa_N a + 1)%nat -> nth i (om_edges o') 0 = nth i L 0 + nth i D 0 * reach a t) /\
      (forall i, (i < oa_N a + 1)%nat -> nth i (om_D o') 0 = if oa_mt4 a then nth i D 0 * 4 / old_sqrt t else nth i D 0)).
  { clear ts. induction ts as [|u ts IH]; intros o E0 Sz Ec Q.
    - destruct (move_sized a o _ t Mv Sz Q) as (o' & Dc & Ec' & M & Ln & _ & _ & _ & _ & He & Hd).
      rewrite Ec in Ec'. injection Ec' as <-. rewrite E0 in He.
      exists o'. cbn [app old_moves]. rewrite M. cbn [bind]. auto.
    - destruct (move_sized a o _ u Mv Sz Q) as (o1 & Dc & Ec' & M & Ln & Sz1 & E1 & Ec1 & Qd & _ & _).
      cbn [app old_moves]. rewrite M. cbn [bind]. apply IH; try congruence; auto.
      intro M4. rewrite Ec1, (Qd M4). auto. }
  assert (SzI : sized (oa_N a + 1) (OldMesh L L D (Some D))).
  { unfold sized, L, D. cbn. rewrite linspace_tab, !tab_length. repeat split. eexists. split; [reflexivity|]. apply tab_length. }
  destruct (H ts (OldMesh L L D (Some D)) eq_refl SzI eq_refl (fun _ => eq_refl)) as (o' & M & Ln & He & Hd).
  exists o'. split; [exact I|]. split; [exact M|]. split; [exact SzI|]. split; [exact Ln|].
  assert (PN : 0 < INR (oa_N a)) by (apply lt_0_INR; lia).
  assert (Fe : forall i, (i <= oa_N a)%nat -> nth i (om_edges o') 0 =
       (oa_x0 a + oa_v a * reach a t) * (-1 + 2 * INR i / INR (oa_N a))).
  { intros i Hi. rewrite He by lia. unfold L, D. rewrite linspace_tab, !nth_tab by lia.
    replace (oa_N a + 1 - 1)%nat with (oa_N a) by lia. field. lra. }
  split; [exact Fe|]. split.
  { intros i Hi. rewrite Hd by lia. unfold D. rewrite !nth_tab by lia.
    pose proof (old_sqrt_pos t). destruct (oa_mt4 a); field; lra. }
  split. { rewrite Fe by lia. cbn. field. lra. }
  split. { rewrite Fe by lia. field. lra. }
  intros P i j Hij. rewrite Ln in Hij. rewrite !Fe by lia. apply Rmult_lt_compat_l; [assumption|].
  apply Rplus_lt_compat_l. unfold Rdiv. apply Rmult_lt_compat_r; [now apply Rinv_0_lt_compat|].
  assert (INR i < INR j) by (apply lt_INR; lia). lra.
Qed.
Print Assumptions C177_linear_mesh.

(** So the reported speed is not the derivative at early times of the square root motion. *)
Theorem C177_early_speed_refuted :
  exists a o i t, oa_moving a = true /\ oa_mt0 a = true /\ oa_mt4 a = true /\ old_init a = Ok o /\
    (i <= oa_N a)%nat /\ 0 < t /\ ~ is_derive (edge_at a o i) t (speed_at a o i t).
Proof.
  set (a := OldArgs 2 1 1 true 1 true false false true false false false).
  destruct (C177_linear_mesh a [] 1) as (o & _ & I & _ & Sz & _); cbn; auto; try lra.
  exists a, o, 2%nat, (1 / 10 ^ 11). repeat split; auto; try lra.
  assert (E : om_Dc o = Some (tab 3 (fun i => 1 * (-1 + 2 * INR i / INR 2)))).
  { pose proof (linear_init 2 1 1 ltac:(lia) ltac:(lra)) as L. change (old_init a) with (old_linear 2 1 1) in I.
    rewrite L in I. injection I as <-. reflexivity. }
  intro H. eapply (C177_early_speed a o 3 2 (1 / 10 ^ 11)) in H; eauto; try lra.
  rewrite nth_tab in H by lia. cbn in H. lra.
Qed.
Print Assumptions C177_early_speed_refuted.

(** ** The mesh of the square source *)

Definition dx_old : R := 1 / 10 ^ 11.

Lemma square_edges k x0 dx : (0 < k)%nat ->
  drop_last (linspace (- x0 - dx) (- x0) (k + 1)) ++ drop_last (linspace (- x0) x0 (2 * k + 1)) ++ linspace x0 (x0 + dx) (k + 1) =
  tab (4 * k + 1) (fun i => if (i <? k)%nat then - x0 - dx + INR i * (dx / INR k)
     else if (i <? 3 * k)%nat then - x0 + INR (i - k) * (x0 / INR k) else x0 + INR (i - 3 * k) * (dx / INR k)).
Proof.
  intro Hk. assert (PK : 0 < INR k) by (apply lt_0_INR; lia).
  rewrite !linspace_tab, !drop_last_tab, !app_tab.
  apply list_is_tab; rewrite ?tab_length; [lia|].
  intros i Hi. rewrite nth_tab by lia.
  replace (k + 1 - 1)%nat with k by lia. replace (2 * k + 1 - 1)%nat with (2 * k)%nat by lia.
  destruct (Nat.ltb_spec i k).
  - replace (- x0 - (- x0 - dx)) with dx by ring. reflexivity.
  - destruct (Nat.ltb_spec (i - k) (2 * k)); destruct (Nat.ltb_spec i (3 * k)); try lia.
    + replace ((x0 - - x0) / INR (2 * k)) with (x0 / INR k); [reflexivity|]. rewrite mult_INR. cbn. field. lra.
    + replace (i - k - 2 * k)%nat with (i - 3 * k)%nat by lia. replace (x0 + dx - x0) with dx by ring. reflexivity.
Qed.

Lemma square_init k x0 v dx : (0 < k)%nat -> 0 < dx ->
  exists E D, old_square (4 * k) x0 v dx = Ok (OldMesh E E D (Some D)) /\ length E = (4 * k + 1)%nat /\
    length D = (4 * k + 1)%nat /\
    (forall i, (i < 4 * k + 1)%nat -> nth i E 0 = if (i <? k)%nat then - x0 - dx + INR i * (dx / INR k)
     else if (i <? 3 * k)%nat then - x0 + INR (i - k) * (x0 / INR k) else x0 + INR (i - 3 * k) * (dx / INR k)) /\
    (forall i, (i < 4 * k + 1)%nat -> nth i D 0 = if (i <? k)%nat then - v * (1 - INR i / INR k)
     else if (i <? 3 * k)%nat then 0 else v * (INR (i - 3 * k) / INR k)).
Proof.
  intros Hk Hd. assert (PK : 0 < INR k) by (apply lt_0_INR; lia).
  unfold old_square. cbv zeta.
  replace (Nat.div (4 * k) 2) with (2 * k)%nat by (replace (4 * k)%nat with (2 * k * 2)%nat by lia; now rewrite Nat.div_mul).
  replace (Nat.div (2 * k) 2) with k by (replace (2 * k)%nat with (k * 2)%nat by lia; now rewrite Nat.div_mul).
  rewrite square_edges by assumption. rewrite getneg_tab by lia. cbn [bind].
  destruct (Nat.ltb_spec (4 * k + 1 - 1) k); [lia|]. destruct (Nat.ltb_spec (4 * k + 1 - 1) (3 * k)); [lia|].
  replace (x0 + INR (4 * k + 1 - 1 - 3 * k) * (dx / INR k) - x0) with dx
    by (replace (4 * k + 1 - 1 - 3 * k)%nat with k by lia; field; lra).
  rewrite slice_tab, vshift_tab, vdivs_tab by lra. cbn [bind].
  rewrite zeros_tab. rewrite setslice_tab by lia. cbn [bind].
  rewrite fillslice_tab by lia. unfold slice_from. rewrite skipn_tab, vshift_tab, vdivs_tab by lra. cbn [bind].
  rewrite setslice_tab by lia. cbn [bind]. rewrite vscale_tab.
  eexists _, _. split; [reflexivity|]. rewrite !tab_length. split; [reflexivity|]. split; [reflexivity|].
  split; intros i Hi; rewrite nth_tab by lia; [reflexivity|].
  replace (Nat.min (k + 2 * k - k) (4 * k + 1 - k)) with (2 * k)%nat by lia.
  replace (Nat.min (k - 0) (4 * k + 1 - 0)) with k by lia.
  destruct (Nat.ltb_spec i k).
  - destruct (Nat.ltb_spec i (2 * k + k + 1)); [|lia].
    destruct (Nat.ltb_spec i 0); [lia|]. destruct (Nat.ltb_spec i (0 + k)); [|lia].
    cbn [Nat.add]. rewrite Nat.sub_0_r. destruct (Nat.ltb_spec i k); [|lia]. field. lra.
  - destruct (Nat.ltb_spec i (2 * k + k + 1)).
    + destruct (Nat.ltb_spec i (k + 2 * k)); destruct (Nat.ltb_spec i (3 * k)); try lia; [ring|].
      destruct (Nat.ltb_spec i 0); [lia|]. destruct (Nat.ltb_spec i (0 + k)); [lia|].
      replace (i - 3 * k)%nat with 0%nat by lia. cbn. field. lra.
    + destruct (Nat.ltb_spec i (2 * k + k + 1 + (4 * k + 1 - (2 * k + k + 1)))); [|lia].
      destruct (Nat.ltb_spec i (3 * k)); [lia|].
      replace (2 * k + k + 1 + (i - (2 * k + k + 1)))%nat with i by lia.
      destruct (Nat.ltb_spec i k); [lia|]. destruct (Nat.ltb_spec i (3 * k)); [lia|]. field. lra.
Qed.

(** Four times [k] cells: [k] on each side that open out of a sliver 1e-11 wide, [2k] at rest
    across the source.  The edges of the source never move, the outermost run ahead, and the mesh
    is increasing at every time at which they have not been pulled back. *)
Theorem C177_square_mesh a k t :
  oa_moving a = true -> oa_mt0 a = false -> oa_mt2 a = false -> oa_mt1 a = true ->
  oa_N a = (4 * k)%nat -> (0 < k)%nat -> 0 < oa_x0 a ->
  exists o o', old_init a = Ok o /\ old_move a o t = Ok o' /\ sized (4 * k + 1) o /\
    om_Dc o = Some (om_D o) /\ length (om_edges o') = (4 * k + 1)%nat /\
    (forall i, (i <= k)%nat -> nth i (om_edges o') 0 = - oa_x0 a - (dx_old + oa_v a * reach a t) * (1 - INR i / INR k)) /\
    (forall i, (i <= 2 * k)%nat -> nth (k + i) (om_edges o') 0 = - oa_x0 a + INR i * (oa_x0 a / INR k)) /\
    (forall i, (i <= k)%nat -> nth (3 * k + i) (om_edges o') 0 = oa_x0 a + (dx_old + oa_v a * reach a t) * (INR i / INR k)) /\
    nth k (om_edges o') 0 = - oa_x0 a /\ nth (3 * k) (om_edges o') 0 = oa_x0 a /\
    nth 0 (om_edges o') 0 = - oa_x0 a - dx_old - oa_v a * reach a t /\
    nth (4 * k) (om_edges o') 0 = oa_x0 a + dx_old + oa_v a * reach a t /\
    (0 < dx_old + oa_v a * reach a t -> increasing (om_edges o')).
Proof.
  intros Mv M0 M2 M1 EN Hk Hx. assert (PK : 0 < INR k) by (apply lt_0_INR; lia).
  assert (Pd : 0 < dx_old) by (unfold dx_old; lra).
  destruct (square_init k (oa_x0 a) (oa_v a) dx_old Hk Pd) as (E & D & I & LE & LD & FE & FD).
  exists (OldMesh E E D (Some D)).
  assert (Sz : sized (4 * k + 1) (OldMesh E E D (Some D))) by (repeat split; cbn; eauto).
  destruct (move_sized a _ _ t Mv Sz (fun _ => eq_refl)) as (o' & Dc & Ec & M & Ln & _ & _ & _ & _ & He & _).
  cbn [om_Dc om_edges0] in Ec, He. injection Ec as <-.
  exists o'. split.
  { unfold old_init. rewrite Mv, M0, M2, M1, EN. cbn [orb].
    destruct (Nat.eqb_spec (4 * k + 1) 3); [lia|]. exact I. }
  split; [exact M|]. split; [exact Sz|]. split; [reflexivity|]. split; [exact Ln|].
  set (r := reach a t) in *.
  assert (F1 : forall i, (i <= k)%nat -> nth i (om_edges o') 0 = - oa_x0 a - (dx_old + oa_v a * r) * (1 - INR i / INR k)).
  { intros i Hi. rewrite He, FE, FD by lia. destruct (Nat.ltb_spec i k).
    - field. lra.
    - destruct (Nat.ltb_spec i (3 * k)); [|lia]. assert (i = k) by lia. subst i. rewrite Nat.sub_diag. cbn [INR]. field. lra. }
  assert (F2 : forall i, (i <= 2 * k)%nat -> nth (k + i) (om_edges o') 0 = - oa_x0 a + INR i * (oa_x0 a / INR k)).
  { intros i Hi. rewrite He, FE, FD by lia. destruct (Nat.ltb_spec (k + i) k); [lia|].
    destruct (Nat.ltb_spec (k + i) (3 * k)).
    - replace (k + i - k)%nat with i by lia. ring.
    - assert (i = 2 * k)%nat by lia. subst i. replace (k + 2 * k - 3 * k)%nat with 0%nat by lia.
      rewrite mult_INR. cbn [INR]. field. lra. }
  assert (F3 : forall i, (i <= k)%nat -> nth (3 * k + i) (om_edges o') 0 = oa_x0 a + (dx_old + oa_v a * r) * (INR i / INR k)).
  { intros i Hi. rewrite He, FE, FD by lia. destruct (Nat.ltb_spec (3 * k + i) k); [lia|].
    destruct (Nat.ltb_spec (3 * k + i) (3 * k)); [lia|]. replace (3 * k + i - 3 * k)%nat with i by lia. field. lra. }
  split; [exact F1|]. split; [exact F2|]. split; [exact F3|].
  split. { rewrite F1 by lia. field. lra. }
  split. { replace (3 * k)%nat with (3 * k + 0)%nat by lia. rewrite F3 by lia. cbn [INR]. field. lra. }
  split. { rewrite F1 by lia. cbn [INR]. field. lra. }
  split. { replace (4 * k)%nat with (3 * k + k)%nat by lia. rewrite F3 by lia. field. lra. }
  intro P.
  assert (Step : forall i, (i < 4 * k)%nat -> nth i (om_edges o') 0 < nth (S i) (om_edges o') 0).
  { intros i Hi. destruct (Nat.lt_ge_cases i k) as [C|C].
    - rewrite !F1 by lia. rewrite S_INR.
      assert (0 < (dx_old + oa_v a * r) * (1 / INR k)).
      { apply Rmult_lt_0_compat; [assumption|]. apply Rdiv_lt_0_compat; lra. }
      replace ((dx_old + oa_v a * r) * (1 - (INR i + 1) / INR k)) with
        ((dx_old + oa_v a * r) * (1 - INR i / INR k) - (dx_old + oa_v a * r) * (1 / INR k)) by (field; lra). lra.
    - destruct (Nat.lt_ge_cases i (3 * k)) as [C'|C'].
      + replace (S i) with (k + (S (i - k)))%nat by lia. replace i with (k + (i - k))%nat at 1 by lia.
        rewrite !F2 by lia. rewrite S_INR.
        assert (0 < oa_x0 a / INR k) by (apply Rdiv_lt_0_compat; lra). lra.
      + replace (S i) with (3 * k + (S (i - 3 * k)))%nat by lia. replace i with (3 * k + (i - 3 * k))%nat at 1 by lia.
        rewrite !F3 by lia. rewrite S_INR.
        assert (0 < (dx_old + oa_v a * r) * (1 / INR k)).
        { apply Rmult_lt_0_compat; [assumption|]. apply Rdiv_lt_0_compat; lra. }
        replace ((dx_old + oa_v a * r) * ((INR (i - 3 * k) + 1) / INR k)) with
          ((dx_old + oa_v a * r) * (INR (i - 3 * k) / INR k) + (dx_old + oa_v a * r) * (1 / INR k)) by (field; lra). lra. }
  intros i j [Hij Hj]. rewrite Ln in Hj. induction Hij as [|j Hij IH].
  - apply Step. lia.
  - eapply Rlt_trans; [apply IH; lia|]. apply Step. lia.
Qed.
Print Assumptions C177_square_mesh.

Lemma quarter N : Nat.div (Nat.div N 2) 2 = Nat.div N 4.
Proof. now rewrite Nat.div_div by lia. Qed.

Lemma vdivs_total l k : (l <> [] -> k <> 0) -> exists l', vdivs l k = Ok l' /\ length l' = length l.
Proof.
  intro H. destruct l as [|x l]; [exists []; auto|].
  rewrite vdivs_ok by (apply H; discriminate). eexists. split; [reflexivity|]. now rewrite map_length.
Qed.

Lemma fillslice_length {A} (l : list A) a b v : length (fillslice l a b v) = length l.
Proof.
  unfold fillslice, slice. rewrite !app_length, repeat_length, firstn_length, skipn_length, firstn_length, skipn_length. lia.
Qed.

(** With a number of cells that is not a multiple of four (two excepted, which make the linear
    mesh) the slices do not fit: the constructor fails, except for 5, 6 and 7 cells, where numpy
    repeats the only entry and the first move fails instead. *)
Theorem C177_square_other_counts a t :
  oa_moving a = true -> oa_mt0 a = false -> oa_mt2 a = false -> oa_mt1 a = true ->
  Nat.modulo (oa_N a) 4 <> 0%nat -> oa_N a <> 2%nat ->
  (Nat.div (oa_N a) 4 <> 1%nat -> old_init a = Err ValueError) /\
  (Nat.div (oa_N a) 4 = 1%nat -> exists o, old_init a = Ok o /\ old_move a o t = Err ValueError).
Proof.
  intros Mv M0 M2 M1 Hm H2.
  set (N := oa_N a) in *. set (k := Nat.div N 4) in *.
  pose proof (Nat.div_mod N 4 ltac:(lia)) as DM. pose proof (Nat.mod_upper_bound N 4 ltac:(lia)) as UB.
  fold k in DM. set (r := Nat.modulo N 4) in *.
  assert (Hmid : exists h, Nat.div N 2 = (2 * k + h)%nat /\ (h <= 1)%nat /\ (r = 1 -> h = 0)%nat).
  { exists (r / 2)%nat. split; [|split].
    - rewrite DM. replace (4 * k + r)%nat with (r + 2 * k * 2)%nat by lia. rewrite Nat.div_add by lia. lia.
    - enough (r / 2 < 2)%nat by lia. apply Nat.div_lt_upper_bound; lia.
    - now intros ->. }
  destruct Hmid as (h & Em & Hh & Hr).
  assert (I : old_init a = old_square N (oa_x0 a) (oa_v a) dx_old).
  { unfold old_init. fold N. rewrite Mv, M0, M2, M1. cbn [orb].
    destruct (Nat.eqb_spec (N + 1) 3); [lia|]. reflexivity. }
  assert (Es : Nat.div (2 * k + h) 2 = k) by (rewrite <- Em; apply quarter).
  rewrite I. unfold old_square. cbv zeta. rewrite Em, Es.
  set (edges := drop_last (linspace (- oa_x0 a - dx_old) (- oa_x0 a) (k + 1)) ++
     drop_last (linspace (- oa_x0 a) (oa_x0 a) (2 * k + h + 1)) ++ linspace (oa_x0 a) (oa_x0 a + dx_old) (k + 1)).
  assert (Ledges : length edges = (4 * k + h + 1)%nat).
  { unfold edges. rewrite !linspace_tab, !drop_last_tab, !app_length, !tab_length. lia. }
  assert (Last : getneg edges 1 = Ok (oa_x0 a + INR k * (dx_old / INR k))).
  { unfold edges. rewrite !linspace_tab, !drop_last_tab, !app_tab. rewrite getneg_tab by lia.
    destruct (Nat.ltb_spec (k + 1 - 1 + (2 * k + h + 1 - 1 + (k + 1)) - 1) (k + 1 - 1)); [lia|].
    destruct (Nat.ltb_spec (k + 1 - 1 + (2 * k + h + 1 - 1 + (k + 1)) - 1 - (k + 1 - 1)) (2 * k + h + 1 - 1)); [lia|].
    f_equal. replace (k + 1 - 1)%nat with k by lia.
    replace (k + (2 * k + h + 1 - 1 + (k + 1)) - 1 - k - (2 * k + h + 1 - 1))%nat with k by lia.
    replace (oa_x0 a + dx_old - oa_x0 a) with dx_old by ring. reflexivity. }
  rewrite Last. cbn [bind].
  replace (oa_x0 a + INR k * (dx_old / INR k) - oa_x0 a) with (INR k * (dx_old / INR k)) by ring.
  assert (Nz : k <> 0%nat -> INR k * (dx_old / INR k) <> 0).
  { intro. assert (0 < INR k) by (apply lt_0_INR; lia). replace (INR k * (dx_old / INR k)) with dx_old by (field; lra).
    unfold dx_old. lra. }
  destruct (vdivs_total (vshift (slice edges 0 k) (oa_x0 a)) (INR k * (dx_old / INR k))) as (l & -> & Ll).
  { intro Hne. apply Nz. intros ->. apply Hne. reflexivity. }
  cbn [bind]. rewrite vshift_length in Ll. unfold slice in Ll. rewrite firstn_length, skipn_length, Ledges in Ll.
  assert (S1 : exists D1, setslice (zeros (N + 1)) 0 k l = Ok D1 /\ length D1 = (N + 1)%nat).
  { unfold setslice. cbv zeta. unfold slice. cbn [skipn]. rewrite firstn_length. unfold zeros. rewrite repeat_length.
    destruct (Nat.eqb_spec (length l) (Nat.min (k - 0) (N + 1))); [|lia]. eexists. split; [reflexivity|].
    rewrite !app_length, firstn_length, skipn_length, repeat_length. lia. }
  destruct S1 as (D1 & -> & L1). cbn [bind].
  destruct (vdivs_total (vshift (slice_from edges (2 * k + h + k + 1)) (- oa_x0 a)) (INR k * (dx_old / INR k))) as (l2 & -> & L2).
  { intro Hne. apply Nz. intros Ek. apply Hne. unfold slice_from. apply length_zero_iff_nil.
    rewrite vshift_length, skipn_length, Ledges. lia. }
  cbn [bind]. rewrite vshift_length in L2. unfold slice_from in L2. rewrite skipn_length, Ledges in L2.
  unfold setslice. cbv zeta.
  assert (Lt : length (slice (fillslice D1 k (k + (2 * k + h)) 0) (2 * k + h + k + 1) (N + 1)) = (k + r - h)%nat).
  { unfold slice. rewrite firstn_length, skipn_length, fillslice_length, L1. lia. }
  rewrite Lt. destruct (Nat.eqb_spec (length l2) (k + r - h)); [lia|].
  split.
  - intro K1. destruct l2 as [|y [|z l2]]; cbn [length] in L2; [reflexivity|lia|reflexivity].
  - intro K1. destruct l2 as [|y [|z l2]]; cbn [length] in L2; [lia| |lia]. cbn [bind].
    eexists. split; [reflexivity|].
    match goal with |- old_move a (OldMesh _ _ (vscale ?D _) _) t = _ => set (D3 := D) end.
    assert (L3 : length D3 = (N + 1)%nat).
    { unfold D3. rewrite !app_length, repeat_length, firstn_length, skipn_length, fillslice_length, L1. lia. }
    assert (V : forall w, length w = (N + 1)%nat -> vadd edges w = Err ValueError).
    { intros w Lw. unfold vadd, vop. rewrite Ledges, Lw. destruct (Nat.eqb_spec (4 * k + h + 1) (N + 1)); [lia|].
      destruct edges as [|e0 [|e1 es]]; cbn [length] in Ledges; try lia.
      destruct w as [|w0 [|w1 ws]]; cbn [length] in Lw; try lia. reflexivity. }
    unfold old_move. rewrite Mv. cbn [om_edges0 om_D om_Dc]. destruct (negb (oa_mt4 a)).
    + rewrite V; [reflexivity|]. now rewrite !vscale_length.
    + pose proof (old_sqrt_pos t). rewrite vdivs_ok by lra. cbn [bind]. rewrite V; [reflexivity|]. now rewrite !vscale_length.
Qed.
Print Assumptions C177_square_other_counts.

(** ** Meshes that do not move *)

Lemma linspace_increasing a b n : a < b -> increasing (linspace a b n).
Proof.
  intros H i j [Hij Hj]. rewrite linspace_tab in *. rewrite tab_length in Hj. rewrite !nth_tab by lia.
  apply Rplus_lt_compat_l. apply Rmult_lt_compat_r; [|apply lt_INR; lia].
  apply Rdiv_lt_0_compat; [lra|]. apply lt_0_INR. lia.
Qed.

(** Evenly spread edges from -(tf + x0) v to (tf + x0) v.  They hold everything a particle of unit
    speed can reach from the source by the final time exactly when the speed is at least one. *)
Theorem C177_static_even a :
  oa_moving a = false -> oa_mt4 a = false -> (0 < oa_N a)%nat -> 0 < oa_tf a + oa_x0 a -> 0 < oa_v a ->
  exists o, old_init a = Ok o /\ (forall t, old_move a o t = Ok o) /\
    length (om_edges o) = (oa_N a + 1)%nat /\ increasing (om_edges o) /\ om_D o = zeros (oa_N a + 1) /\
    (forall i, (i <= oa_N a)%nat -> nth i (om_edges o) 0 = oa_v a * (oa_tf a + oa_x0 a) * (-1 + 2 * INR i / INR (oa_N a))) /\
    ((nth 0 (om_edges o) 0 <= - (oa_x0 a + oa_tf a) /\ oa_x0 a + oa_tf a <= nth (oa_N a) (om_edges o) 0) <-> 1 <= oa_v a).
Proof.
  intros Mv M4 HN Ht Hv. assert (PN : 0 < INR (oa_N a)) by (apply lt_0_INR; lia).
  unfold old_init. rewrite Mv. unfold old_static. cbv zeta. rewrite M4. cbn [negb].
  eexists. split; [reflexivity|]. split. { intro t. unfold old_move. now rewrite Mv. }
  cbn [om_edges om_D]. split. { rewrite linspace_tab. apply tab_length. }
  split. { apply linspace_increasing. nra. }
  split; [reflexivity|].
  match goal with |- ?A /\ _ => assert (F : A) end.
  { intros i Hi. rewrite linspace_tab, nth_tab by lia. replace (oa_N a + 1 - 1)%nat with (oa_N a) by lia. field. lra. }
  split; [exact F|]. rewrite !F by lia. cbn [INR].
  replace (-1 + 2 * 0 / INR (oa_N a)) with (-1) by (field; lra).
  replace (-1 + 2 * INR (oa_N a) / INR (oa_N a)) with 1 by (field; lra).
  split; [intros [_ H]|intro H; split]; nra.
Qed.
Print Assumptions C177_static_even.

(** The Gaussian source with the square root motion: from -(x0 + 4 v sqrt(tf)) to its mirror image. *)
Theorem C177_static_gauss a :
  oa_moving a = false -> oa_mt4 a = true -> oa_src5 a = true -> (0 < oa_N a)%nat -> 0 < oa_x0 a -> 0 <= oa_v a ->
  exists o, old_init a = Ok o /\ (forall t, old_move a o t = Ok o) /\
    length (om_edges o) = (oa_N a + 1)%nat /\ increasing (om_edges o) /\ om_D o = zeros (oa_N a + 1) /\
    forall i, (i <= oa_N a)%nat ->
      nth i (om_edges o) 0 = (oa_x0 a + 4 * oa_v a * sqrt (oa_tf a)) * (-1 + 2 * INR i / INR (oa_N a)).
Proof.
  intros Mv M4 S5 HN Hx Hv. assert (PN : 0 < INR (oa_N a)) by (apply lt_0_INR; lia).
  unfold old_init. rewrite Mv. unfold old_static. cbv zeta. rewrite M4, S5. cbn [negb].
  pose proof (sqrt_pos (oa_tf a)).
  eexists. split; [reflexivity|]. split. { intro t. unfold old_move. now rewrite Mv. }
  cbn [om_edges om_D]. split. { rewrite linspace_tab. apply tab_length. }
  split. { apply linspace_increasing. nra. }
  split; [reflexivity|].
  intros i Hi. rewrite linspace_tab, nth_tab by lia. replace (oa_N a + 1 - 1)%nat with (oa_N a) by lia. field. lra.
Qed.
Print Assumptions C177_static_gauss.

(** Four cells around a square source, at rest. *)
Theorem C177_static_square_four a :
  oa_moving a = false -> oa_mt4 a = true -> oa_src5 a = false -> (oa_src2 a = true \/ oa_src1 a = true) ->
  oa_N a = 4%nat ->
  exists o, old_init a = Ok o /\ (forall t, old_move a o t = Ok o) /\
    om_edges o = [- oa_x0 a - 8 * oa_v a * sqrt (oa_tf a); - oa_x0 a; 0; oa_x0 a; oa_x0 a + 8 * oa_v a * sqrt (oa_tf a)].
Proof.
  intros Mv M4 S5 S EN. unfold old_init. rewrite Mv. unfold old_static. cbv zeta. rewrite M4, S5, EN. cbn [negb].
  assert (SS : oa_src2 a || oa_src1 a = true) by (destruct S as [-> | ->]; auto with bool).
  rewrite SS. cbn [Nat.eqb].
  eexists. split; [reflexivity|]. split. { intro t. unfold old_move. now rewrite Mv. }
  cbn [om_edges]. unfold old_static4. cbv zeta. unfold linspace, drop_last, slice_from. cbn.
  repeat (f_equal; try (field; fail)).
Qed.
Print Assumptions C177_static_square_four.

Lemma static_more_edges N x0 tf v : (4 <= N)%nat ->
  let q := Nat.div N 4 in let s := v * sqrt tf in
  old_static_more N x0 tf v = tab (4 * q + 1) (fun i =>
    if (i <? q)%nat then - x0 - 8 * s + INR i * (8 * s / INR q)
    else if (i <? 2 * q - 1)%nat then - x0 + INR (i - q) * (8 * s / INR (q - 1))
    else if (i =? 2 * q - 1)%nat then - x0 + 8 * s
    else if (i =? 2 * q)%nat then s
    else if (i <? 3 * q + 1)%nat then x0 - 8 * s + INR (i - (2 * q + 1)) * (8 * s / INR (q - 1))
    else x0 + INR (i - 3 * q) * (8 * s / INR q)).
Proof.
  intros HN q s. assert (Hq : (1 <= q)%nat) by (apply Nat.div_le_lower_bound; lia).
  assert (PQ : 0 < INR q) by (apply lt_0_INR; lia).
  unfold old_static_more. cbv zeta. fold q.
  replace (8 * sqrt tf * v) with (8 * s) by (unfold s; ring).
  replace (6 * sqrt tf * v) with (6 * s) by (unfold s; ring).
  replace (-8 * sqrt tf * v - x0) with (- x0 - 8 * s) by (unfold s; ring).
  unfold slice_from. rewrite !linspace_tab, !drop_last_tab, skipn_tab, !app_tab.
  apply list_is_tab; rewrite ?tab_length; [lia|].
  intros i Hi. rewrite nth_tab by lia.
  replace (q + 1 - 1)%nat with q by lia.
  destruct (Nat.ltb_spec i q).
  - replace (- x0 - (- x0 - 8 * s)) with (8 * s) by ring. reflexivity.
  - destruct (Nat.ltb_spec (i - q) (q - 1)); destruct (Nat.ltb_spec i (2 * q - 1)); try lia.
    + replace (- x0 + 8 * s - - x0) with (8 * s) by ring. reflexivity.
    + change (3 - 1)%nat with 2%nat.
      destruct (Nat.ltb_spec (i - q - (q - 1)) 2).
      * destruct (Nat.eqb_spec i (2 * q - 1)).
        -- replace (i - q - (q - 1))%nat with 0%nat by lia. cbn [INR]. ring.
        -- destruct (Nat.eqb_spec i (2 * q)); [|lia]. replace (i - q - (q - 1))%nat with 1%nat by lia. cbn [INR]. field.
      * destruct (Nat.eqb_spec i (2 * q - 1)); [lia|]. destruct (Nat.eqb_spec i (2 * q)); [lia|].
        destruct (Nat.ltb_spec (i - q - (q - 1) - 2) q); destruct (Nat.ltb_spec i (3 * q + 1)); try lia.
        -- replace (i - q - (q - 1) - 2)%nat with (i - (2 * q + 1))%nat by lia.
           replace (x0 - (x0 - 8 * s)) with (8 * s) by ring. reflexivity.
        -- replace (1 + (i - q - (q - 1) - 2 - q))%nat with (i - 3 * q)%nat by lia.
           replace (-1 * (- x0 - 8 * s) - x0) with (8 * s) by ring. reflexivity.
Qed.

(** More than four cells around a square source, at rest, with q = N/4 (rounded down) and
    s = v sqrt(tf): there are 4q + 1 edges, N + 1 of them only for a multiple of four; the middle
    edge is at s, not at 0 (line 209 subtracts six where 211 subtracts eight); the edges increase
    exactly when the source is wider than 9 s; the edges of the source are among them for eight
    cells or more. *)
Theorem C177_static_square_more a :
  oa_moving a = false -> oa_mt4 a = true -> oa_src5 a = false -> (oa_src2 a = true \/ oa_src1 a = true) ->
  (4 < oa_N a)%nat -> 0 < oa_v a -> 0 < oa_tf a ->
  let q := Nat.div (oa_N a) 4 in let s := oa_v a * sqrt (oa_tf a) in
  exists o, old_init a = Ok o /\ (forall t, old_move a o t = Ok o) /\
    length (om_edges o) = (4 * q + 1)%nat /\
    (length (om_edges o) = (oa_N a + 1)%nat <-> Nat.modulo (oa_N a) 4 = 0%nat) /\
    nth 0 (om_edges o) 0 = - oa_x0 a - 8 * s /\ nth (4 * q) (om_edges o) 0 = oa_x0 a + 8 * s /\
    nth (2 * q - 1) (om_edges o) 0 = - oa_x0 a + 8 * s /\ nth (2 * q + 1) (om_edges o) 0 = oa_x0 a - 8 * s /\
    nth (2 * q) (om_edges o) 0 = s /\ 0 < s /\
    (increasing (om_edges o) <-> 9 * s < oa_x0 a) /\
    ((8 <= oa_N a)%nat -> nth q (om_edges o) 0 = - oa_x0 a /\ nth (3 * q) (om_edges o) 0 = oa_x0 a) /\
    ((oa_N a < 8)%nat -> om_edges o = [- oa_x0 a - 8 * s; - oa_x0 a + 8 * s; s; oa_x0 a - 8 * s; oa_x0 a + 8 * s]).
Proof.
  intros Mv M4 S5 S HN Hv Ht q s.
  assert (Hq : (1 <= q)%nat) by (apply Nat.div_le_lower_bound; lia).
  assert (PQ : 0 < INR q) by (apply lt_0_INR; lia).
  assert (Ps : 0 < s) by (apply Rmult_lt_0_compat; [assumption|now apply sqrt_lt_R0]).
  assert (SS : oa_src2 a || oa_src1 a = true) by (destruct S as [-> | ->]; auto with bool).
  exists (OldMesh (old_static_more (oa_N a) (oa_x0 a) (oa_tf a) (oa_v a)) (zeros (oa_N a + 1)) (zeros (oa_N a + 1)) None).
  split.
  { unfold old_init. rewrite Mv. unfold old_static. cbv zeta. rewrite M4, S5, SS. cbn [negb].
    destruct (Nat.eqb_spec (oa_N a) 4); [lia|]. destruct (Nat.ltb_spec 4 (oa_N a)); [|lia]. reflexivity. }
  split. { intro t. unfold old_move. now rewrite Mv. }
  cbn [om_edges]. rewrite static_more_edges by lia. fold q s.
  rewrite !tab_length. split; [reflexivity|]. split.
  { pose proof (Nat.div_mod (oa_N a) 4 ltac:(lia)). fold q in H. lia. }
  match goal with |- context[tab (4 * q + 1) ?f] => set (e := f) end.
  assert (E1 : e (2 * q - 1)%nat = - oa_x0 a + 8 * s).
  { unfold e. destruct (Nat.ltb_spec (2 * q - 1) q); [lia|]. destruct (Nat.ltb_spec (2 * q - 1) (2 * q - 1)); [lia|].
    now rewrite Nat.eqb_refl. }
  assert (E2 : e (2 * q)%nat = s).
  { unfold e. destruct (Nat.ltb_spec (2 * q) q); [lia|]. destruct (Nat.ltb_spec (2 * q) (2 * q - 1)); [lia|].
    destruct (Nat.eqb_spec (2 * q) (2 * q - 1)); [lia|]. now rewrite Nat.eqb_refl. }
  assert (E3 : forall i, (2 * q < i <= 3 * q)%nat -> e i = oa_x0 a - 8 * s + INR (i - (2 * q + 1)) * (8 * s / INR (q - 1))).
  { intros i Hi. unfold e. destruct (Nat.ltb_spec i q); [lia|]. destruct (Nat.ltb_spec i (2 * q - 1)); [lia|].
    destruct (Nat.eqb_spec i (2 * q - 1)); [lia|]. destruct (Nat.eqb_spec i (2 * q)); [lia|].
    destruct (Nat.ltb_spec i (3 * q + 1)); [reflexivity|lia]. }
  assert (E4 : forall i, (3 * q < i)%nat -> e i = oa_x0 a + INR (i - 3 * q) * (8 * s / INR q)).
  { intros i Hi. unfold e. destruct (Nat.ltb_spec i q); [lia|]. destruct (Nat.ltb_spec i (2 * q - 1)); [lia|].
    destruct (Nat.eqb_spec i (2 * q - 1)); [lia|]. destruct (Nat.eqb_spec i (2 * q)); [lia|].
    destruct (Nat.ltb_spec i (3 * q + 1)); [lia|reflexivity]. }
  assert (E0 : forall i, (i < q)%nat -> e i = - oa_x0 a - 8 * s + INR i * (8 * s / INR q)).
  { intros i Hi. unfold e. destruct (Nat.ltb_spec i q); [reflexivity|lia]. }
  assert (E0' : forall i, (q <= i < 2 * q - 1)%nat -> e i = - oa_x0 a + INR (i - q) * (8 * s / INR (q - 1))).
  { intros i Hi. unfold e. destruct (Nat.ltb_spec i q); [lia|]. destruct (Nat.ltb_spec i (2 * q - 1)); [reflexivity|lia]. }
  rewrite !nth_tab by lia.
  split. { rewrite E0 by lia. cbn [INR]. ring. }
  split. { rewrite E4 by lia. replace (4 * q - 3 * q)%nat with q by lia. field. lra. }
  split; [exact E1|].
  split. { rewrite E3 by lia. rewrite Nat.sub_diag. cbn [INR]. ring. }
  split; [exact E2|]. split; [exact Ps|].
  assert (E3q : (2 <= q)%nat -> e (3 * q)%nat = oa_x0 a).
  { intro Q2. rewrite E3 by lia. replace (3 * q - (2 * q + 1))%nat with (q - 1)%nat by lia.
    assert (0 < INR (q - 1)) by (apply lt_0_INR; lia). field. lra. }
  assert (P1 : 0 < 8 * s / INR q) by (apply Rdiv_lt_0_compat; lra).
  split.
  { split.
    - intro Inc. specialize (Inc (2 * q)%nat (2 * q + 1)%nat). rewrite tab_length, !nth_tab in Inc by lia.
      rewrite E2, E3 in Inc by lia. rewrite Nat.sub_diag in Inc. cbn [INR] in Inc. specialize (Inc ltac:(lia)). lra.
    - intro W.
      assert (Step : forall i, (i < 4 * q)%nat -> e i < e (Datatypes.S i)).
      { intros i Hi.
        destruct (Nat.lt_ge_cases i q) as [C|C].
        - rewrite (E0 i) by lia. destruct (Nat.lt_ge_cases (Datatypes.S i) q) as [C'|C'].
          + rewrite E0 by lia. rewrite S_INR. lra.
          + assert (Bi : INR i * (8 * s / INR q) = 8 * s - 8 * s / INR q).
            { replace i with (q - 1)%nat by lia. rewrite minus_INR by lia. cbn [INR]. field. lra. }
            rewrite Bi. destruct (Nat.lt_ge_cases (Datatypes.S i) (2 * q - 1)) as [D|D].
            * rewrite E0' by lia. replace (Datatypes.S i - q)%nat with 0%nat by lia. cbn [INR]. lra.
            * replace (Datatypes.S i) with (2 * q - 1)%nat by lia. rewrite E1. lra.
        - destruct (Nat.lt_ge_cases i (2 * q - 1)) as [C1|C1].
          + rewrite (E0' i) by lia.
            assert (P2 : 0 < INR (q - 1)) by (apply lt_0_INR; lia).
            assert (P3 : 0 < 8 * s / INR (q - 1)) by (apply Rdiv_lt_0_compat; lra).
            destruct (Nat.lt_ge_cases (Datatypes.S i) (2 * q - 1)) as [D|D].
            * rewrite E0' by lia. replace (Datatypes.S i - q)%nat with (Datatypes.S (i - q)) by lia. rewrite S_INR. lra.
            * replace (Datatypes.S i) with (2 * q - 1)%nat by lia. rewrite E1.
              replace (i - q)%nat with (q - 1 - 1)%nat by lia. rewrite (minus_INR (q - 1)) by lia. cbn [INR].
              replace ((INR (q - 1) - 1) * (8 * s / INR (q - 1))) with (8 * s - 8 * s / INR (q - 1)) by (field; lra). lra.
          + destruct (Nat.eq_dec i (2 * q - 1)) as [->|C2].
            * replace (Datatypes.S (2 * q - 1)) with (2 * q)%nat by lia. rewrite E1, E2. lra.
            * destruct (Nat.eq_dec i (2 * q)) as [->|C3].
              -- rewrite E2, E3 by lia. replace (Datatypes.S (2 * q) - (2 * q + 1))%nat with 0%nat by lia. cbn [INR]. lra.
              -- destruct (Nat.lt_ge_cases i (3 * q)) as [C4|C4].
                 ++ rewrite !E3 by lia. replace (Datatypes.S i - (2 * q + 1))%nat with (Datatypes.S (i - (2 * q + 1))) by lia.
                    rewrite S_INR.
                    assert (P2 : 0 < INR (q - 1)) by (apply lt_0_INR; lia).
                    assert (P3 : 0 < 8 * s / INR (q - 1)) by (apply Rdiv_lt_0_compat; lra). lra.
                 ++ rewrite (E4 (Datatypes.S i)) by lia.
                    destruct (Nat.eq_dec i (3 * q)) as [->|C5].
                    ** replace (Datatypes.S (3 * q) - 3 * q)%nat with 1%nat by lia. cbn [INR].
                       destruct (Nat.le_gt_cases 2 q) as [Q2|Q2].
                       --- rewrite E3q by assumption. lra.
                       --- rewrite E3 by lia. replace (3 * q - (2 * q + 1))%nat with 0%nat by lia. cbn [INR]. lra.
                    ** rewrite E4 by lia. replace (Datatypes.S i - 3 * q)%nat with (Datatypes.S (i - 3 * q)) by lia.
                       rewrite S_INR. lra. }
      intros i j [Hij Hj]. rewrite tab_length in Hj. rewrite !nth_tab by lia. induction Hij as [|j Hij IH].
      + apply Step. lia.
      + eapply Rlt_trans; [apply IH; lia|]. apply Step. lia. }
  split.
  - intro H8. assert (Q2 : (2 <= q)%nat) by (apply Nat.div_le_lower_bound; lia).
    split; [|now apply E3q].
    destruct (Nat.lt_ge_cases q (2 * q - 1)) as [C|C]; [|lia].
    rewrite E0' by lia. rewrite Nat.sub_diag. cbn [INR]. ring.
  - intro H8. assert (Q1 : q = 1%nat).
    { assert (q < 2)%nat by (apply Nat.div_lt_upper_bound; lia). lia. }
    rewrite Q1 in *. cbn [Nat.mul Nat.add Nat.sub] in *.
    unfold tab. cbn [seq map]. rewrite (E0 0%nat), E1, E2, (E3 3%nat), (E4 4%nat) by lia. cbn [INR Nat.sub].
    rewrite !Rmult_0_l, !Rplus_0_r, Rmult_1_l. replace (8 * s / 1) with (8 * s) by (field). reflexivity.
Qed.
Print Assumptions C177_static_square_more.

(** The middle edge of that mesh is off the middle of the source for every admissible setting. *)
Theorem C177_static_square_symmetric_refuted :
  exists a o, oa_moving a = false /\ oa_mt4 a = true /\ oa_src2 a = true /\ oa_N a = 8%nat /\ old_init a = Ok o /\
    increasing (om_edges o) /\ ~ (forall i, (i < 9)%nat -> nth (8 - i) (om_edges o) 0 = - nth i (om_edges o) 0).
Proof.
  set (a := OldArgs 8 10 1 false 1 false false false true false true false).
  destruct (C177_static_square_more a) as (o & I & _ & _ & _ & _ & _ & _ & _ & E & P & Inc & _); cbn; auto; try lra; try lia.
  exists a, o. repeat split; auto.
  - apply Inc. cbn. rewrite sqrt_1. lra.
  - intro H. specialize (H 4%nat ltac:(lia)). change (Nat.div (oa_N a) 4) with 2%nat in E. cbn [Nat.mul Nat.add Nat.sub] in *.
    rewrite E in H. cbn in *. rewrite sqrt_1 in *. lra.
Qed.
Print Assumptions C177_static_square_symmetric_refuted.

(** Configurations no branch covers leave all edges at zero: a moving mesh with none of the move
    types 0 to 2 (which then cannot make a square root move, and stays put in a linear one), and a
    static one with the square root motion and another source. *)
Theorem C177_uncovered a t :
  (oa_moving a = true -> oa_mt0 a = false -> oa_mt1 a = false -> oa_mt2 a = false -> oa_N a <> 2%nat ->
     exists o, old_init a = Ok o /\ om_edges o = zeros (oa_N a + 1) /\
       if oa_mt4 a then old_move a o t = Err Uninit
       else exists o', old_move a o t = Ok o' /\ om_edges o' = zeros (oa_N a + 1)) /\
  (oa_moving a = false -> oa_mt4 a = true -> oa_src5 a = false ->
     (oa_src2 a = false /\ oa_src1 a = false) \/ (oa_N a < 4)%nat ->
     exists o, old_init a = Ok o /\ old_move a o t = Ok o /\ om_edges o = zeros (oa_N a + 1)).
Proof.
  split.
  - intros Mv M0 M1 M2 H2. unfold old_init. rewrite Mv, M0, M1, M2. cbn [orb].
    destruct (Nat.eqb_spec (oa_N a + 1) 3); [lia|].
    eexists. split; [reflexivity|]. split; [reflexivity|]. unfold old_move. rewrite Mv. cbn [om_edges0 om_D om_Dc].
    destruct (oa_mt4 a); cbn [negb]; [reflexivity|].
    rewrite zeros_tab, vscale_tab. unfold vadd. rewrite vop_tab. cbn [bind]. eexists. split; [reflexivity|].
    cbn [om_edges]. apply list_is_tab; [apply tab_length|]. intros i Hi. rewrite nth_tab by assumption. ring.
  - intros Mv M4 S5 C. unfold old_init. rewrite Mv. unfold old_static. cbv zeta. rewrite M4, S5. cbn [negb].
    eexists. split; [reflexivity|]. split. { unfold old_move. now rewrite Mv. }
    cbn [om_edges]. destruct C as [[-> ->]|C]; [reflexivity|].
    destruct (Nat.eqb_spec (oa_N a) 4); [lia|]. destruct (Nat.ltb_spec 4 (oa_N a)); [lia|].
    destruct (oa_src2 a || oa_src1 a); reflexivity.
Qed.
Print Assumptions C177_uncovered.

(** Four cells, the source between -1/2 and 1/2, unit speed: at time 2 the outer edges are 2 and
    1e-11 beyond the source and the others where they were. *)
Example C177_example :
  let a := OldArgs 4 (1 / 2) 2 true 1 false true false false false true false in
  exists o o', old_init a = Ok o /\ old_move a o 2 = Ok o' /\ increasing (om_edges o') /\
    nth 0 (om_edges o') 0 = - (1 / 2) - dx_old - 2 /\ nth 1 (om_edges o') 0 = - (1 / 2) /\
    nth 3 (om_edges o') 0 = 1 / 2.
Proof.
  intro a. destruct (C177_square_mesh a 1 2) as (o & o' & I & M & _ & _ & _ & _ & _ & _ & E1 & E3 & E0 & _ & Inc);
    cbn; auto; try lra.
  exists o, o'. repeat split; auto.
  - apply Inc. unfold reach, dx_old. cbn. lra.
  - rewrite E0. unfold reach. cbn. ring.
Qed.
