(** Shell, plane, boundary, Gaussian and sqrt(t) meshes: closed forms. *)
From Coquelicot Require Import Coquelicot.
From Verif Require Import Py PyLemmas MeshModel MeshSpec MeshProofs MeshSquare.

Lemma INR_pos n : (1 <= n)%nat -> 0 < INR n.
Proof. intro H. apply lt_0_INR. lia. Qed.

(* ------------------------------------------------------------------ spherical shell *)
Definition sh_pos (N : nat) (x v t : R) (i : nat) : R :=
  let n := (N / 2 + 1)%nat in
  if (i <=? n)%nat then x * INR i / INR n
  else x + INR (i - n) / INR (N - n) * (dx_shell + v * t).
Definition sh_vel (N : nat) (v : R) (i : nat) : R :=
  let n := (N / 2 + 1)%nat in
  if (i <=? n)%nat then 0 else INR (i - n) / INR (N - n) * v.

Section Shell.
Variable c : cfg.
Let N := N_space c.
Let n := (N / 2 + 1)%nat.
Hypothesis HN : (1 <= N)%nat.
Let P := sh_pos N (x0 c) (speed c).
Let V := sh_vel N (speed c).

Lemma shell_nN : (n <= N)%nat /\ (1 <= n)%nat.
Proof.
  unfold n. pose proof (Nat.div_mod N 2). pose proof (Nat.mod_upper_bound N 2). lia.
Qed.

Lemma shell_ok s :
  shell_source c s =
  Ok (State (tab (N + 1) (P 0)) (tab (N + 1) (P 0)) (tab (N + 1) V) (tab (N + 1) V)
       (c1s s) (edges0_2 s) (moving s)).
Proof.
  destruct shell_nN as [H1 H2].
  unfold shell_source. cbv zeta. fold N. fold n.
  assert (EE : linspace 0 (x0 c) (n + 1) ++ slice_from (linspace (x0 c) (x0 c + 1 / 100000) (N + 1 - n)) 1
     = tab (N + 1) (P 0)).
  { rewrite !linspace_tab. unfold slice_from. rewrite skipn_tab, app_tab.
    replace (n + 1 + (N + 1 - n - 1))%nat with (N + 1)%nat by lia.
    apply tab_ext. intros i Hi. unfold P, sh_pos. fold n.
      destruct (Nat.leb_spec i n).
      - destruct (Nat.ltb_spec i (n + 1)); [|lia]. replace (n + 1 - 1)%nat with n by lia.
        assert (INR n <> 0) by (apply not_0_INR; lia). field; auto.
      - destruct (Nat.ltb_spec i (n + 1)); [lia|].
        replace (1 + (i - (n + 1)))%nat with (i - n)%nat by lia.
        replace (N + 1 - n - 1)%nat with (N - n)%nat by lia.
        assert (INR (N - n) <> 0) by (apply not_0_INR; lia). unfold dx_shell. field; auto. }
  rewrite EE. rewrite tab_length, Nat.eqb_refl. cbn [negb].
  rewrite getneg_tab by lia. cbn [bind]. replace (N + 1 - 1)%nat with N by lia.
  unfold slice_from. rewrite skipn_tab, vshift_tab.
  assert (EV : (t' <- vdivs (tab (N + 1 - (n + 1)) (fun i => P 0 (n + 1 + i)%nat + - x0 c)) (P 0 N - x0 c) ;;
        d <- setslice (zeros (N + 1)) (n + 1) (N + 1) (vscale t' (speed c)) ;; Ok d) = Ok (tab (N + 1) V)).
  { destruct (Nat.eq_dec N n) as [E|E].
    - replace (N + 1 - (n + 1))%nat with 0%nat by lia. cbn [tab map seq vdivs bind].
      change (vscale [] (speed c)) with (tab 0 (fun _ => 0)).
      rewrite zeros_tab, setslice_tab by lia. cbn [bind]. f_equal. apply tab_ext. intros i Hi.
      unfold V, sh_vel. fold n. destruct (Nat.leb_spec i n); [|lia].
      destruct (i <? n + 1)%nat; auto. destruct (i <? n + 1 + 0)%nat; auto.
    - assert (PN : P 0 N = x0 c + dx_shell).
      { unfold P, sh_pos. fold n. destruct (Nat.leb_spec N n); [lia|].
        assert (INR (N - n) <> 0) by (apply not_0_INR; lia). field; auto. }
      rewrite PN. rewrite vdivs_tab by (unfold dx_shell; lra). cbn [bind].
      rewrite vscale_tab, zeros_tab, setslice_tab by lia. cbn [bind]. f_equal. apply tab_ext. intros i Hi.
      unfold V, sh_vel. fold n. destruct (Nat.leb_spec i n).
      + destruct (Nat.ltb_spec i (n + 1)); [auto|lia].
      + destruct (Nat.ltb_spec i (n + 1)); [lia|]. destruct (Nat.ltb_spec i (n + 1 + (N + 1 - (n + 1)))); [|lia].
        replace (n + 1 + (i - (n + 1)))%nat with i by lia.
        unfold P, sh_pos. fold n. destruct (Nat.leb_spec i n); [lia|].
        assert (INR (N - n) <> 0) by (apply not_0_INR; lia). unfold dx_shell. field. repeat split; auto; lra. }
  apply bind_ok in EV as (t' & E1 & EV). rewrite E1. cbn [bind].
  apply bind_ok in EV as (d & E2 & EV). rewrite E2. cbn [bind]. injection EV as ->. reflexivity.
Qed.

Definition sh_state (t : R) : state :=
  State (tab (N + 1) (P t)) (tab (N + 1) (P 0)) (tab (N + 1) V) (tab (N + 1) V) None None true.

Lemma shell_init_ok :
  square_ic_sphere c -> moving_flag c = true -> init c = Ok (sh_state 0).
Proof.
  intros (Hl & Ht & Hs & H01 & H02 & H3 & H5 & H1) Hm. unfold init.
  destruct (Nat.ltb_spec (length (source_type c)) 6); [lia|].
  unfold init_dispatch. rewrite H01, H02, Ht, H3, H5, H1, Hs. cbn [orb negb bind].
  rewrite shell_ok. cbn [bind c1s edges0_2 moving state0]. rewrite Hm. reflexivity.
Qed.

Lemma sh_lin t i : P 0 i + V i * t = P t i.
Proof.
  unfold P, V, sh_pos, sh_vel. fold n. destruct (_ <=? _)%nat; [ring|]. ring.
Qed.

Lemma move_sh s t :
  square_ic_sphere c -> finite_domain c = false ->
  edges0 s = tab (N + 1) (P 0) -> Dedges_const s = tab (N + 1) V -> c1s s = None -> edges0_2 s = None ->
  moving s = true -> move c t s = Ok (sh_state t).
Proof.
  intros (Hl & Ht & Hs & H01 & H02 & H3 & H5 & H1) Hf He Hd Hc He2 Hm.
  unfold move. rewrite Hm, H01, H02, H1, Hf, He, Hd. cbn [orb andb bind].
  unfold advance. rewrite vscale_tab. unfold vadd. rewrite vop_tab. cbn [bind].
  unfold set_Dedges, set_edges, sh_state. cbn [edges edges0 Dedges Dedges_const c1s edges0_2 moving].
  rewrite He, Hd, Hc, He2, Hm. do 2 f_equal. apply tab_ext. intros. apply sh_lin.
Qed.

Lemma moves_sh ts t s :
  square_ic_sphere c -> finite_domain c = false ->
  edges0 s = tab (N + 1) (P 0) -> Dedges_const s = tab (N + 1) V -> c1s s = None -> edges0_2 s = None ->
  moving s = true -> moves c (ts ++ [t]) s = Ok (sh_state t).
Proof.
  intros Hc Hf. revert s. induction ts as [|u ts IH]; intros s He Hd Hc1 He2 Hm; cbn [moves app].
  - rewrite move_sh; auto.
  - rewrite move_sh; auto. cbn [bind]. apply IH; reflexivity.
Qed.

Lemma reach_sh ts t :
  square_ic_sphere c -> finite_domain c = false -> moving_flag c = true ->
  reach c (ts ++ [t]) (sh_state t).
Proof.
  intros Hc Hf Hm. exists (sh_state 0). split; [apply shell_init_ok; auto|]. apply moves_sh; auto.
Qed.

Lemma sh_incr t : 0 < x0 c -> 0 < dx_shell + speed c * t -> increasing (tab (N + 1) (P t)).
Proof.
  destruct shell_nN as [H1 H2]. intros Hx Hw.
  apply incr_of_steps. rewrite tab_length. intros i Hi. rewrite !nth_tab by lia.
  unfold P, sh_pos. fold n.
  assert (Hn : 0 < INR n) by (apply INR_pos; lia).
  destruct (Nat.leb_spec i n); destruct (Nat.leb_spec (S i) n); try lia.
  - rewrite S_INR. unfold Rdiv. apply Rmult_lt_compat_r; [now apply Rinv_0_lt_compat|]. nra.
  - replace i with n by lia. replace (S n - n)%nat with 1%nat by lia.
    assert (Hr : 0 < INR (N - n)) by (apply INR_pos; lia).
    replace (x0 c * INR n / INR n) with (x0 c) by (field; lra).
    assert (0 < INR 1 / INR (N - n) * (dx_shell + speed c * t)); [|lra].
    apply Rmult_lt_0_compat; auto. apply Rdiv_lt_0_compat; auto. simpl; lra.
  - assert (Hr : 0 < INR (N - n)) by (apply INR_pos; lia).
    apply Rplus_lt_compat_l. apply Rmult_lt_compat_r; auto.
    apply Rmult_lt_compat_r; [now apply Rinv_0_lt_compat|]. apply lt_INR. lia.
Qed.
End Shell.

(* ------------------------------------------------------------------ plane pulse *)
Section Plane.
Variable c : cfg.
Let N := N_space c.
Hypothesis HN : (1 <= N)%nat.
Hypothesis Hx : x0 c <> 0.
Let NR : INR N <> 0. Proof. apply not_0_INR. lia. Qed.
Definition pl_vel (i : nat) : R := (2 * INR i / INR N - 1) * speed c.

Lemma plane_slab_dispatch :
  plane_thin c -> slab c = true ->
  exists e, init_dispatch c (state0 c) =
   Ok (State e (zeros (N + 1)) (tab (N + 1) pl_vel) (tab (N + 1) pl_vel) None None (moving_flag c)).
Proof.
  intros (Hl & Ht & H0 & H1 & H2 & H3 & H5) Hs. unfold init_dispatch.
  assert (H0' : st_is c 0 1 || st_is c 0 2 = true) by (destruct H0 as [->| ->]; [auto|now rewrite orb_true_r]).
  rewrite H0', Ht, H1, H2, H3, H5. cbn [orb negb].
  assert (Ez : all_zero c = false).
  { unfold all_zero. destruct (source_type c) as [|z l] eqn:E; [cbn in Hl; lia|].
    unfold st_is, st in H0. rewrite E in H0. cbn in H0. cbn. destruct H0 as [H0|H0]; apply Z.eqb_eq in H0; subst; auto. }
  rewrite Ez. unfold simple_moving_init. rewrite Hs. cbv zeta. cbn [edges set_edges]. fold N.
  rewrite linspace_tab. rewrite getneg_tab by lia. cbn [bind].
  replace (N + 1 - 1)%nat with N by lia.
  replace (- x0 c + INR N * ((x0 c - - x0 c) / INR N)) with (x0 c) by (field; auto).
  rewrite vdivs_tab by auto. cbn [bind]. rewrite vscale_tab.
  assert (EV : tab (N + 1) (fun i => (- x0 c + INR i * ((x0 c - - x0 c) / INR N)) / x0 c * speed c)
     = tab (N + 1) pl_vel).
  { apply tab_ext. intros i Hi. unfold pl_vel. field; auto. }
  rewrite EV. clear EV.
  cbn [negb andb]. destruct (st_is c 0 2); cbn [bind]; eexists; reflexivity.
Qed.

Lemma moves_plane ts t e v m : m = true ->
  plane_thin c ->
  exists s', moves c (ts ++ [t])
     (State e (zeros (N + 1)) (tab (N + 1) v) (tab (N + 1) pl_vel) None None m) = Ok s' /\
     edges s' = tab (N + 1) (fun i => pl_vel i * t) /\ Dedges s' = tab (N + 1) v.
Proof.
  intros -> Hc. pose proof Hc as (Hl & Ht & H0 & H1 & H2 & H3 & H5).
  assert (H0' : st_is c 0 1 || st_is c 0 2 = true) by (destruct H0 as [->| ->]; [auto|now rewrite orb_true_r]).
  assert (Hs : forall u e, move c u (State e (zeros (N + 1)) (tab (N + 1) v) (tab (N + 1) pl_vel) None None true) =
     Ok (State (tab (N + 1) (fun i => pl_vel i * u)) (zeros (N + 1)) (tab (N + 1) v) (tab (N + 1) pl_vel) None None true)).
  { intros u e'. unfold move. cbn [moving]. rewrite H0'. cbn [edges0 Dedges_const].
    unfold advance, vadd. rewrite vscale_tab, zeros_tab, vop_tab. cbn [bind].
    unfold set_edges. cbn [edges0 Dedges Dedges_const c1s edges0_2 moving]. rewrite <- zeros_tab. do 2 f_equal.
    apply tab_ext. intros. ring. }
  revert e. induction ts as [|u ts IH]; intro e; cbn [moves app]; rewrite Hs; cbn [bind].
  - eexists. split; [reflexivity|]. split; reflexivity.
  - apply IH.
Qed.

Lemma reach_plane ts t :
  plane_thin c -> slab c = true -> moving_flag c = true ->
  exists s, reach c (ts ++ [t]) s /\ edges s = tab (N + 1) (fun i => pl_vel i * t) /\ Dedges s = tab (N + 1) pl_vel.
Proof.
  intros Hc Hs Hm. destruct (plane_slab_dispatch Hc Hs) as [e He].
  destruct (moves_plane ts t e pl_vel (moving_flag c) Hm Hc) as (s' & M & E & D).
  exists s'. split; [|auto]. exists (State e (zeros (N + 1)) (tab (N + 1) pl_vel) (tab (N + 1) pl_vel) None None (moving_flag c)).
  split; [|exact M]. unfold init. destruct Hc as (Hl & _).
  destruct (Nat.ltb_spec (length (source_type c)) 6); [lia|]. rewrite He. cbn [bind].
  unfold set_Dconst. cbn [moving]. rewrite Hm. reflexivity.
Qed.
End Plane.

(* ------------------------------------------------------------------ boundary source *)
Lemma st_all_zero c k z : all_zero c = true -> z <> 0%Z -> st_is c k z = false.
Proof.
  intros H Hz. unfold st_is, st. apply Z.eqb_neq. unfold all_zero in H. rewrite forallb_forall in H.
  destruct (Nat.ltb_spec k (length (source_type c))).
  - assert (HI : In (nth k (source_type c) 0%Z) (source_type c)) by (apply nth_In; auto).
    specialize (H _ HI). apply Z.eqb_eq in H. lia.
  - rewrite nth_overflow by lia. lia.
Qed.

Section Boundary.
Variable c : cfg.
Variable m : nat.
Hypothesis HN : N_space c = (2 * m)%nat.
Hypothesis Hm : (1 <= m)%nat.
Hypothesis Htf : tfinal c <> 0.
Variable v0 : R.
Definition bd_start (i : nat) : R := - x0 c + INR i * (x0 c / INR m).
Definition bd_final (i : nat) : R :=
  if (i <? m)%nat then - x0 c + INR i * ((x0 c - tfinal c * v0) / INR m)
  else - tfinal c * v0 + INR (i - m) * ((x0 c + tfinal c * v0) / INR m).
Definition bd_vel (i : nat) : R := (bd_final i - bd_start i) / tfinal c.
Definition bd_pos (t : R) (i : nat) : R := bd_start i + bd_vel i * t.
Let n := (2 * m + 1)%nat.

Lemma boundary_ok s : (if moving s then fake_sedov_v c else 0) = v0 ->
  boundary_source_init c s =
  Ok (State (tab n bd_start) (tab n bd_start) (tab n bd_vel) (Dedges_const s) (c1s s) (edges0_2 s) (moving s)).
Proof.
  intro Hv. unfold boundary_source_init. cbv zeta. rewrite Hv, HN.
  replace ((2 * m) / 2)%nat with m by (symmetry; replace (2 * m)%nat with (m * 2)%nat by lia; apply Nat.div_mul; lia).
  rewrite !linspace_tab, drop_last_tab, app_tab.
  replace (m + 1 - 1 + (m + 1))%nat with n by (unfold n; lia). fold n.
  unfold vsub. rewrite vop_tab. cbn [bind]. rewrite vdivs_tab by auto. cbn [bind].
  assert (MR : INR m <> 0) by (apply not_0_INR; lia).
  assert (NR : INR (2 * m) <> 0) by (apply not_0_INR; lia).
  assert (E1 : tab n (fun i => - x0 c + INR i * ((x0 c - - x0 c) / INR (n - 1))) = tab n bd_start).
  { apply tab_ext. intros i Hi. unfold bd_start. replace (n - 1)%nat with (2 * m)%nat by (unfold n; lia).
    rewrite mult_INR. simpl (INR 2). field. auto. }
  rewrite E1. unfold set_edges0, set_Dedges, set_edges. cbn [edges edges0 Dedges Dedges_const c1s edges0_2 moving].
  f_equal. f_equal. apply tab_ext. intros i Hi. unfold bd_vel. f_equal. f_equal.
  - unfold bd_final. replace (m + 1 - 1)%nat with m by lia. destruct (Nat.ltb_spec i m); [f_equal; f_equal; f_equal; ring|].
    f_equal. f_equal. f_equal. ring.
  - unfold bd_start. replace (n - 1)%nat with (2 * m)%nat by (unfold n; lia).
    rewrite mult_INR. simpl (INR 2). field. auto.
Qed.

Definition bd_state (t : R) : state :=
  State (tab n (bd_pos t)) (tab n bd_start) (tab n bd_vel) (tab n bd_vel) None None true.

Lemma boundary_init_ok :
  boundary_thin c -> moving_flag c = true -> fake_sedov_v c = v0 -> init c = Ok (State (tab n bd_start) (tab n bd_start) (tab n bd_vel) (tab n bd_vel) None None true).
Proof.
  intros (Hl & Ht & Hz) Hmv Hv. unfold init.
  destruct (Nat.ltb_spec (length (source_type c)) 6); [lia|].
  unfold init_dispatch. rewrite !(st_all_zero _ _ _ Hz) by discriminate. rewrite Ht, Hz. cbn [orb negb bind].
  rewrite boundary_ok; [|cbn; now rewrite Hmv]. cbn [bind]. unfold set_Dconst, state0.
  cbn [edges edges0 Dedges Dedges_const c1s edges0_2 moving]. rewrite Hmv. reflexivity.
Qed.

Lemma moves_bd ts t e : boundary_thin c ->
  moves c (ts ++ [t]) (State e (tab n bd_start) (tab n bd_vel) (tab n bd_vel) None None true) = Ok (bd_state t).
Proof.
  intros (Hl & Ht & Hz).
  assert (Hs : forall u e, move c u (State e (tab n bd_start) (tab n bd_vel) (tab n bd_vel) None None true) = Ok (bd_state u)).
  { intros u e'. unfold move. cbn [moving]. rewrite !(st_all_zero _ _ _ Hz) by discriminate. cbn [orb andb edges0 Dedges].
    rewrite Hz. unfold advance, vadd. rewrite vscale_tab, vop_tab. reflexivity. }
  revert e. induction ts as [|u ts IH]; intro e; cbn [moves app]; rewrite Hs; cbn [bind]; auto. apply IH.
Qed.

Lemma reach_bd ts t : boundary_thin c -> moving_flag c = true -> fake_sedov_v c = v0 -> reach c (ts ++ [t]) (bd_state t).
Proof.
  intros Hc Hmv Hv. eexists. split; [apply boundary_init_ok; auto|]. apply moves_bd; auto.
Qed.

Let MR : 0 < INR m. Proof. now apply INR_pos. Qed.

Lemma bd_first t : bd_pos t 0 = - x0 c.
Proof.
  unfold bd_pos, bd_vel, bd_start, bd_final. destruct (Nat.ltb_spec 0 m); [|lia].
  simpl (INR 0). field. split; [lra|auto].
Qed.
Lemma bd_last t : bd_pos t (2 * m) = x0 c.
Proof.
  unfold bd_pos, bd_vel, bd_start, bd_final. destruct (Nat.ltb_spec (2 * m) m); [lia|].
  replace (2 * m - m)%nat with m by lia. rewrite mult_INR. simpl (INR 2). field. split; [lra|auto].
Qed.
Lemma bd_mid t : bd_pos t m = - v0 * t.
Proof.
  unfold bd_pos, bd_vel, bd_start, bd_final. destruct (Nat.ltb_spec m m); [lia|].
  rewrite Nat.sub_diag. simpl (INR 0). field. split; [lra|auto].
Qed.
Lemma bd_step t i : (i < 2 * m)%nat -> 0 < tfinal c -> 0 <= t <= tfinal c -> Rabs v0 * tfinal c < x0 c ->
  bd_pos t i < bd_pos t (S i).
Proof.
  intros Hi Hp Ht Hv.
  assert (Hv' : - x0 c < tfinal c * v0 < x0 c).
  { pose proof (Rle_abs v0). pose proof (Rle_abs (- v0)). rewrite Rabs_Ropp in *. nra. }
  assert (E : forall i, bd_pos t i = (1 - t / tfinal c) * bd_start i + t / tfinal c * bd_final i).
  { intro j. unfold bd_pos, bd_vel. field. auto. }
  rewrite !E.
  assert (Hr : 0 <= t / tfinal c <= 1).
  { split; [apply Rdiv_le_0_compat; lra|]. apply Rmult_le_reg_r with (tfinal c); auto. unfold Rdiv.
    rewrite Rmult_assoc, Rinv_l; lra. }
  set (r := t / tfinal c) in *.
  assert (S1 : bd_start (S i) - bd_start i = x0 c / INR m).
  { unfold bd_start. rewrite S_INR. field. lra. }
  assert (S2 : 0 < bd_final (S i) - bd_final i).
  { unfold bd_final. destruct (Nat.ltb_spec i m); destruct (Nat.ltb_spec (S i) m); try lia.
    - rewrite S_INR. replace (_ - _) with ((x0 c - tfinal c * v0) / INR m) by (field; lra).
      apply Rdiv_lt_0_compat; lra.
    - replace m with (S i) in * by lia. rewrite Nat.sub_diag. rewrite S_INR in *. simpl (INR 0).
      replace (_ - _) with ((x0 c - tfinal c * v0) / (INR i + 1)) by (field; lra).
      apply Rdiv_lt_0_compat; lra.
    - replace (S i - m)%nat with (S (i - m)) by lia. rewrite S_INR.
      replace (_ - _) with ((x0 c + tfinal c * v0) / INR m) by (field; lra).
      apply Rdiv_lt_0_compat; lra. }
  assert (S3 : 0 < x0 c / INR m) by (apply Rdiv_lt_0_compat; lra).
  destruct (Req_dec r 0) as [->|]; nra.
Qed.
Lemma bd_incr t : 0 < tfinal c -> 0 <= t <= tfinal c -> Rabs v0 * tfinal c < x0 c -> increasing (tab n (bd_pos t)).
Proof.
  intros. apply incr_of_steps. rewrite tab_length. intros i Hi. rewrite !nth_tab by lia. apply bd_step; auto.
  unfold n in Hi. lia.
Qed.
End Boundary.

(* ------------------------------------------------------------------ no branch in move *)
Lemma move_noop c t s :
  st_is c 0 1 = false -> st_is c 0 2 = false -> st_is c 1 1 = false ->
  st_is c 2 1 && finite_domain c = false -> all_zero c = false -> move c t s = Ok s.
Proof. intros H1 H2 H3 H4 H5. unfold move. rewrite H1, H2, H3, H4, H5. cbn. destruct (moving s); auto. Qed.

Lemma moves_noop c ts s :
  st_is c 0 1 = false -> st_is c 0 2 = false -> st_is c 1 1 = false ->
  st_is c 2 1 && finite_domain c = false -> all_zero c = false -> moves c ts s = Ok s.
Proof.
  intros. induction ts; cbn [moves]; auto. rewrite move_noop; auto.
Qed.

Lemma not_all_zero c k : (6 <= length (source_type c))%nat -> (k < 6)%nat -> st_is c k 1 = true -> all_zero c = false.
Proof.
  intros Hl Hk H. destruct (all_zero c) eqn:E; auto. unfold all_zero in E. rewrite forallb_forall in E.
  unfold st_is, st in H. assert (HI : In (nth k (source_type c) 0%Z) (source_type c)) by (apply nth_In; lia).
  specialize (E _ HI).
  apply Z.eqb_eq in E, H. lia.
Qed.

Lemma gaussian_lemma c :
  gaussian_thin c -> (1 <= N_space c)%nat -> 0 < x0 c -> moving_flag c = true -> slab c = true ->
  exists s0, init c = Ok s0 /\ edges s0 = linspace (- x0 c) (x0 c) (N_space c + 1) /\
    Dedges s0 = tab (N_space c + 1) (pl_vel c) /\
    forall ts, moves c ts s0 = Ok s0.
Proof.
  intros (Hl & Ht & H01 & H02 & H1 & H2 & H35) HN Hx Hm Hs.
  assert (H35' : st_is c 3 1 || st_is c 5 1 = true) by (destruct H35 as [->| ->]; [auto|now rewrite orb_true_r]).
  assert (Hz : all_zero c = false).
  { destruct H35 as [H|H]; [eapply (not_all_zero c 3)|eapply (not_all_zero c 5)]; eauto; lia. }
  unfold init. destruct (Nat.ltb_spec (length (source_type c)) 6); [lia|].
  unfold init_dispatch. rewrite H01, H02, Ht, H35'. cbn [orb negb bind].
  unfold simple_moving_init. rewrite Hs, H02. cbv zeta. cbn [edges set_edges].
  set (N := N_space c) in *.
  assert (NR : INR N <> 0) by (apply not_0_INR; lia).
  rewrite !linspace_tab. rewrite getneg_tab by lia. cbn [bind]. replace (N + 1 - 1)%nat with N by lia.
  replace (- x0 c + INR N * ((x0 c - - x0 c) / INR N)) with (x0 c) by (field; auto).
  rewrite vdivs_tab by lra. cbn [bind]. rewrite vscale_tab.
  cbn [moving state0 set_Dconst set_Dedges set_edges]. rewrite Hm.
  eexists. split; [reflexivity|]. split; [reflexivity|]. split.
  - cbn [Dedges set_Dedges set_Dconst]. apply tab_ext. intros i Hi. unfold pl_vel. fold N.
    field. split; auto. lra.
  - intro ts. apply moves_noop; auto. now rewrite H2.
Qed.

Lemma unhandled_lemma c ts :
  unhandled_thin c ->
  exists s0, init c = Ok s0 /\ moves c ts s0 = Ok s0 /\ edges s0 = zeros (N_space c + 1) /\ 
    (forall d, In d (Dedges s0) -> d = 0).
Proof.
  intros (Hl & Ht & H01 & H02 & H1 & H2 & H3 & H5 & Hz).
  unfold init. destruct (Nat.ltb_spec (length (source_type c)) 6); [lia|].
  unfold init_dispatch. rewrite H01, H02, Ht, H1, H2, H3, H5, Hz. cbn [orb negb bind].
  cbn [moving state0 set_Dconst]. destruct (moving_flag c).
  - eexists. split; [reflexivity|]. split; [apply moves_noop; auto; now rewrite H2|]. split; [reflexivity|].
    cbn. intros d Hd. now apply repeat_spec in Hd.
  - rewrite move_noop; auto; [|now rewrite H2]. cbn [bind].
    eexists. split; [reflexivity|]. split; [apply moves_noop; auto; now rewrite H2|]. split; [reflexivity|].
    cbn. unfold vscale. intros d Hd. apply in_map_iff in Hd as (z & <- & _). ring.
Qed.

(* ------------------------------------------------------------------ sqrt(t) *)
Lemma sqrt_t_lemma c s t n e v :
  edges0 s = tab n e -> Dedges_const s = tab n v ->
  exists s', sqrt_t_move c s t = Ok s' /\
    edges s' = tab n (fun i => e i + v i * move_factor c * sqrt_floor t) /\
    Dedges s' = tab n (fun i => v i * move_factor c * (1/2) / sqrt_floor t).
Proof.
  intros He Hv. unfold sqrt_t_move. cbv zeta. rewrite He, Hv, !vscale_tab.
  assert (0 < sqrt_floor t).
  { unfold sqrt_floor, Rgtb. destruct (Rltb_spec (1 / 10 ^ 10) t) as [H|H].
    - apply sqrt_lt_R0. assert (0 < 1 / 10 ^ 10) by (apply Rdiv_lt_0_compat; lra). lra.
    - apply sqrt_lt_R0. apply Rdiv_lt_0_compat; lra. }
  rewrite vdivs_tab by lra. cbn [bind]. unfold vadd. rewrite vop_tab. cbn [bind].
  eexists. split; [reflexivity|]. split; reflexivity.
Qed.
