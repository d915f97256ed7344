(** Slab square meshes: closed forms. *)
From Coquelicot Require Import Coquelicot.
From Verif Require Import Py PyLemmas MeshModel MeshSpec MeshProofs.

Lemma div4 k : ((4 * k) / 2 = 2 * k)%nat /\ ((4 * k) / 4 = k)%nat /\ ((2 * k) / 2 = k)%nat.
Proof.
  repeat split.
  - replace (4 * k)%nat with ((2 * k) * 2)%nat by lia. apply Nat.div_mul; lia.
  - replace (4 * k)%nat with (k * 4)%nat by lia. apply Nat.div_mul; lia.
  - replace (2 * k)%nat with (k * 2)%nat by lia. apply Nat.div_mul; lia.
Qed.

Lemma square_derivs_tab c k kap s E :
  N_space c = (4 * k)%nat -> (1 <= k)%nat ->
  edges s = tab (4 * k + 1) E -> Dedges s = tab (4 * k + 1) (fun _ => 0) ->
  E (4 * k)%nat - x0 c <> 0 ->
  square_derivs c kap s = Ok (set_Dedges s (tab (4 * k + 1) (fun i =>
     (if (i <? k)%nat then (E i + x0 c) / (E (4 * k)%nat - x0 c)
      else if (i <=? 3 * k)%nat then 0 else (E i - x0 c) / (E (4 * k)%nat - x0 c)) * kap))).
Proof.
  intros HN Hk He Hd Hne. destruct (div4 k) as (D2 & D4 & D22).
  unfold square_derivs. cbv zeta. rewrite HN, He, Hd, D2, D22.
  rewrite getneg_tab by lia. cbn [bind]. replace (4 * k + 1 - 1)%nat with (4 * k)%nat by lia.
  rewrite slice_tab, vshift_tab, vdivs_tab by auto. cbn [bind].
  rewrite setslice_tab by lia. cbn [bind].
  unfold slice_from. rewrite skipn_tab, vshift_tab, vdivs_tab by auto. cbn [bind].
  rewrite fillslice_tab by lia. rewrite tab_length.
  rewrite setslice_tab by lia. cbn [bind].
  rewrite vscale_tab. f_equal. f_equal. apply tab_ext. intros i Hi. f_equal.
  repeat match goal with |- context [(?a <? ?b)%nat] => destruct (Nat.ltb_spec a b)
         | |- context [(?a <=? ?b)%nat] => destruct (Nat.leb_spec a b) end; try lia; auto.
  - replace (0 + (i - 0))%nat with i by lia. reflexivity.
  - replace (2 * k + k + 1 + (i - (2 * k + k + 1)))%nat with i by lia. reflexivity.
Qed.

Lemma incr_of_steps l :
  (forall i, (S i < length l)%nat -> nth i l 0 < nth (S i) l 0) -> increasing l.
Proof.
  intros H i j [Hij Hj]. induction j as [|j IH]; [lia|].
  destruct (Nat.eq_dec i j) as [->|E]; [apply H; lia|].
  apply Rlt_trans with (nth j l 0); [apply IH; lia|apply H; lia].
Qed.

(** The mesh in closed form: [v] edge speed, [qe] end nodes, [q] middle nodes. *)
Definition sq_pos (k : nat) (x v : R) (q qe : list R) (t : R) (i : nat) : R :=
  if (i <? k)%nat then - x + (nth i qe 0 - 1) / 2 * (dx_slab + v * t)
  else if (i <=? 3 * k)%nat then x * nth (i - k) q 0
  else x + (nth (i - 3 * k) qe 0 + 1) / 2 * (dx_slab + v * t).
Definition sq_vel (k : nat) (v : R) (qe : list R) (i : nat) : R :=
  if (i <? k)%nat then (nth i qe 0 - 1) / 2 * v
  else if (i <=? 3 * k)%nat then 0
  else (nth (i - 3 * k) qe 0 + 1) / 2 * v.

Section Square.
Variable c : cfg.
Variable k : nat.
Hypothesis HN : N_space c = (4 * k)%nat.
Hypothesis Hk : (1 <= k)%nat.
Hypothesis Hq : mesh_nodes_ok c.
Let q := thick_quad c.
Let qe := thick_quad_edge c.
Let P := sq_pos k (x0 c) (speed c) q qe.
Let V := sq_vel k (speed c) qe.

Lemma q_len : length q = (2 * k + 1)%nat.
Proof. destruct Hq as [(H & _) _]. unfold q. rewrite H, HN. destruct (div4 k) as (-> & _). lia. Qed.
Lemma qe_len : length qe = (k + 1)%nat.
Proof. destruct Hq as [_ (H & _)]. unfold qe. rewrite H, HN. destruct (div4 k) as (_ & -> & _). lia. Qed.
Lemma q_first : nth 0 q 0 = -1. Proof. apply Hq. Qed.
Lemma qe_first : nth 0 qe 0 = -1. Proof. apply Hq. Qed.
Lemma q_last : nth (2 * k) q 0 = 1.
Proof. destruct Hq as [(_ & _ & _ & H) _]. rewrite HN in H. destruct (div4 k) as (D & _). rewrite D in H.
  replace (2 * k + 1 - 1)%nat with (2 * k)%nat in H by lia. exact H. Qed.
Lemma qe_last : nth k qe 0 = 1.
Proof. destruct Hq as [_ (_ & _ & _ & H)]. rewrite HN in H. destruct (div4 k) as (_ & D & _). rewrite D in H.
  replace (k + 1 - 1)%nat with k in H by lia. exact H. Qed.

Lemma thin_leg_ok s :
  Dedges s = zeros (N_space c + 1) ->
  thin_square_init_legendre c s =
  Ok (State (tab (4 * k + 1) (P 0)) (tab (4 * k + 1) (P 0)) (tab (4 * k + 1) V) (tab (4 * k + 1) V)
       (c1s s) (edges0_2 s) (moving s)).
Proof.
  intro Hz. unfold thin_square_init_legendre. rewrite HN.
  destruct (Nat.eqb_spec (4 * k) 2); [lia|]. cbv zeta.
  fold q qe. rewrite (tab_eta q), (tab_eta qe), q_len, qe_len.
  rewrite !map_tab, !drop_last_tab, !app_tab.
  match goal with |- context [set_edges s (tab ?n ?f)] =>
    replace (tab n f) with (tab (4 * k + 1) (P 0)) end.
  2:{ replace (k + 1 - 1 + (2 * k + 1 - 1 + (k + 1)))%nat with (4 * k + 1)%nat by lia.
      apply tab_ext. intros i Hi. unfold P, sq_pos.
      destruct (Nat.ltb_spec i k).
      - destruct (Nat.ltb_spec i (k + 1 - 1)); [|lia]. unfold dx_slab. field.
      - destruct (Nat.ltb_spec i (k + 1 - 1)); [lia|].
        destruct (Nat.leb_spec i (3 * k)).
        + destruct (Nat.ltb_spec (i - (k + 1 - 1)) (2 * k + 1 - 1)).
          * f_equal. f_equal. lia.
          * replace i with (3 * k)%nat by lia. replace (3 * k - k)%nat with (2 * k)%nat by lia.
            rewrite q_last. replace (3 * k - (k + 1 - 1) - (2 * k + 1 - 1))%nat with 0%nat by lia.
            rewrite qe_first. field.
        + destruct (Nat.ltb_spec (i - (k + 1 - 1)) (2 * k + 1 - 1)); [lia|].
          replace (i - (k + 1 - 1) - (2 * k + 1 - 1))%nat with (i - 3 * k)%nat by lia.
          unfold dx_slab. field. }
  assert (PL : P 0 (4 * k)%nat = x0 c + dx_slab).
  { unfold P, sq_pos. destruct (Nat.ltb_spec (4 * k) k); [lia|].
    destruct (Nat.leb_spec (4 * k) (3 * k)); [lia|].
    replace (4 * k - 3 * k)%nat with k by lia. rewrite qe_last. unfold dx_slab. field. }
  assert (DX : dx_slab <> 0) by (unfold dx_slab; lra).
  rewrite (square_derivs_tab c k (speed c) _ (P 0)); auto.
  - cbn [bind]. f_equal. unfold set_edges0, set_Dconst, set_Dedges, set_edges. cbn [edges edges0 Dedges Dedges_const c1s edges0_2 moving].
    assert (EV : tab (4 * k + 1) (fun i : nat =>
        (if (i <? k)%nat then (P 0 i + x0 c) / (P 0 (4 * k)%nat - x0 c)
         else if (i <=? 3 * k)%nat then 0 else (P 0 i - x0 c) / (P 0 (4 * k)%nat - x0 c)) * speed c)
        = tab (4 * k + 1) V).
    { apply tab_ext. intros i Hi. rewrite PL. unfold V, sq_vel, P, sq_pos.
      destruct (Nat.ltb_spec i k); [field; lra|]. destruct (Nat.leb_spec i (3 * k)); [ring|]. field; lra. }
    rewrite EV. reflexivity.
  - cbn. rewrite Hz, HN. apply zeros_tab.
  - rewrite PL. replace (x0 c + dx_slab - x0 c) with dx_slab by ring. auto.
Qed.

(** Construction of a thin slab square mesh before the static adjustment. *)
Lemma square_dispatch_ok :
  thin_square_slab c -> st_is c 1 1 || st_is c 2 1 = true ->
  init_dispatch c (state0 c) =
  Ok (State (tab (4 * k + 1) (P 0)) (tab (4 * k + 1) (P 0)) (tab (4 * k + 1) V) (tab (4 * k + 1) V)
       None None (moving_flag c)).
Proof.
  intros (Hl & Ht & Hs & H01 & H02 & H3 & H5) H12.
  unfold init_dispatch. rewrite H01, H02, Ht, H3, H5, H12, Hs. cbn [orb negb bind].
  rewrite thin_leg_ok; reflexivity.
Qed.

Lemma square_init_ok :
  thin_square_slab c -> st_is c 1 1 || st_is c 2 1 = true -> moving_flag c = true ->
  init c = Ok (State (tab (4 * k + 1) (P 0)) (tab (4 * k + 1) (P 0)) (tab (4 * k + 1) V) (tab (4 * k + 1) V)
       None None true).
Proof.
  intros Ht H12 Hm. unfold init. destruct Ht as (Hl & Ht).
  destruct (Nat.ltb_spec (length (source_type c)) 6); [lia|].
  rewrite square_dispatch_ok by (repeat split; tauto). cbn [bind moving set_Dconst]. cbv zeta. cbn [moving set_Dconst]. rewrite Hm. reflexivity.
Qed.

(** One step of the freely moving square initial condition mesh. *)
Definition sq_state (t : R) : state :=
  State (tab (4 * k + 1) (P t)) (tab (4 * k + 1) (P 0)) (tab (4 * k + 1) V) (tab (4 * k + 1) V) None None true.

Lemma P_lin t i : P 0 i + V i * t = P t i.
Proof. unfold P, V, sq_pos, sq_vel. destruct (_ <? _)%nat; [field|]. destruct (_ <=? _)%nat; [ring|]. field. Qed.

Lemma advance_sq t : advance (tab (4 * k + 1) (P 0)) (tab (4 * k + 1) V) t = Ok (tab (4 * k + 1) (P t)).
Proof. unfold advance. rewrite vscale_tab. unfold vadd. rewrite vop_tab. f_equal. apply tab_ext. intros. apply P_lin. Qed.

Lemma move_sq s t :
  square_ic_slab c -> finite_domain c = false ->
  edges0 s = tab (4 * k + 1) (P 0) -> Dedges_const s = tab (4 * k + 1) V -> c1s s = None -> edges0_2 s = None ->
  moving s = true -> move c t s = Ok (sq_state t).
Proof.
  intros ((Hl & Ht & Hs & H01 & H02 & H3 & H5) & H1) Hf He Hd Hc He2 Hm.
  unfold move. rewrite Hm, H01, H02, H1, Hf, He, Hd. cbn [orb andb bind].
  rewrite advance_sq. cbn [bind]. unfold set_Dedges, set_edges, sq_state. cbn [edges edges0 Dedges Dedges_const c1s edges0_2 moving].
  now rewrite He, Hd, Hc, He2, Hm.
Qed.

Lemma moves_sq ts t s :
  square_ic_slab c -> finite_domain c = false ->
  edges0 s = tab (4 * k + 1) (P 0) -> Dedges_const s = tab (4 * k + 1) V -> c1s s = None -> edges0_2 s = None ->
  moving s = true -> moves c (ts ++ [t]) s = Ok (sq_state t).
Proof.
  intros Hc Hf. revert s. induction ts as [|u ts IH]; intros s He Hd Hc1 He2 Hm; cbn [moves app].
  - rewrite move_sq; auto.
  - rewrite move_sq; auto. cbn [bind]. apply IH; reflexivity.
Qed.

Lemma reach_sq ts t :
  square_ic_slab c -> finite_domain c = false -> moving_flag c = true ->
  reach c (ts ++ [t]) (sq_state t).
Proof.
  intros Hc Hf Hm. eexists. split.
  - apply square_init_ok; auto; [apply Hc|]. destruct Hc as [_ ->]. reflexivity.
  - apply moves_sq; auto.
Qed.

(* ---------- order, ends, symmetry *)
Lemma P_incr t : 0 < x0 c -> 0 < dx_slab + speed c * t -> increasing (tab (4 * k + 1) (P t)).
Proof.
  intros Hx Hw. destruct Hq as [(_ & Iq & _) (_ & Iqe & _)]. fold q in Iq. fold qe in Iqe.
  apply incr_of_steps. rewrite tab_length. intros i Hi. rewrite !nth_tab by lia.
  unfold P, sq_pos.
  destruct (Nat.ltb_spec i k).
  - destruct (Nat.ltb_spec (S i) k).
    + assert (nth i qe 0 < nth (S i) qe 0) by (apply Iqe; rewrite qe_len; lia).
      apply Rplus_lt_compat_l. apply Rmult_lt_compat_r; auto. lra.
    + destruct (Nat.leb_spec (S i) (3 * k)); [|lia].
      replace (S i - k)%nat with 0%nat by lia. rewrite q_first.
      assert (nth i qe 0 < nth k qe 0) by (apply Iqe; rewrite qe_len; lia).
      rewrite qe_last in *. nra.
  - destruct (Nat.ltb_spec (S i) k); [lia|]. destruct (Nat.leb_spec i (3 * k)).
    + destruct (Nat.leb_spec (S i) (3 * k)).
      * apply Rmult_lt_compat_l; auto. apply Iq. rewrite q_len. lia.
      * replace i with (3 * k)%nat by lia. replace (3 * k - k)%nat with (2 * k)%nat by lia. rewrite q_last.
        replace (S (3 * k) - 3 * k)%nat with 1%nat by lia.
        assert (nth 0 qe 0 < nth 1 qe 0) by (apply Iqe; rewrite qe_len; lia).
        rewrite qe_first in *. nra.
    + destruct (Nat.leb_spec (S i) (3 * k)); [lia|].
      assert (nth (i - 3 * k) qe 0 < nth (S i - 3 * k) qe 0) by (apply Iqe; rewrite qe_len; lia).
      apply Rplus_lt_compat_l. apply Rmult_lt_compat_r; auto. lra.
Qed.

Lemma P_first t : P t 0%nat = - (x0 c + dx_slab + speed c * t).
Proof.
  unfold P, sq_pos. destruct (Nat.ltb_spec 0 k); [|lia]. rewrite qe_first. field.
Qed.
Lemma P_last t : P t (4 * k)%nat = x0 c + dx_slab + speed c * t.
Proof.
  unfold P, sq_pos. destruct (Nat.ltb_spec (4 * k) k); [lia|]. destruct (Nat.leb_spec (4 * k) (3 * k)); [lia|].
  replace (4 * k - 3 * k)%nat with k by lia. rewrite qe_last. field.
Qed.
Lemma P_mid t i : (k <= i <= 3 * k)%nat -> P t i = x0 c * nth (i - k) q 0.
Proof.
  intro H. unfold P, sq_pos. destruct (Nat.ltb_spec i k); [lia|]. destruct (Nat.leb_spec i (3 * k)); [auto|lia].
Qed.
Lemma V_mid i : (k <= i <= 3 * k)%nat -> V i = 0.
Proof. intro H. unfold V, sq_vel. destruct (Nat.ltb_spec i k); [lia|]. destruct (Nat.leb_spec i (3 * k)); [auto|lia]. Qed.
Lemma P_sym t i : nodes_sym q -> nodes_sym qe -> (i <= 4 * k)%nat -> P t (4 * k - i)%nat = - P t i.
Proof.
  intros Sq Sqe Hi.
  assert (SE : forall j, (j <= k)%nat -> nth (k - j) qe 0 = - nth j qe 0).
  { intros j Hj. specialize (Sqe j). rewrite qe_len in Sqe. replace (k + 1 - 1 - j)%nat with (k - j)%nat in Sqe by lia. apply Sqe. lia. }
  assert (SQ : forall j, (j <= 2 * k)%nat -> nth (2 * k - j) q 0 = - nth j q 0).
  { intros j Hj. specialize (Sq j). rewrite q_len in Sq. replace (2 * k + 1 - 1 - j)%nat with (2 * k - j)%nat in Sq by lia. apply Sq. lia. }
  unfold P, sq_pos.
  destruct (Nat.ltb_spec i k).
  - destruct (Nat.ltb_spec (4 * k - i) k); [lia|]. destruct (Nat.leb_spec (4 * k - i) (3 * k)); [lia|].
    replace (4 * k - i - 3 * k)%nat with (k - i)%nat by lia. rewrite SE by lia. field.
  - destruct (Nat.leb_spec i (3 * k)).
    + destruct (Nat.ltb_spec (4 * k - i) k); [lia|]. destruct (Nat.leb_spec (4 * k - i) (3 * k)); [|lia].
      replace (4 * k - i - k)%nat with (2 * k - (i - k))%nat by lia. rewrite SQ by lia. ring.
    + destruct (Nat.ltb_spec (4 * k - i) k); [|lia].
      replace (4 * k - i)%nat with (k - (i - 3 * k))%nat by lia. rewrite SE by lia. field.
Qed.
End Square.
