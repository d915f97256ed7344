(** Lemmas in the exact shape of the mesh theorems, and witness configurations. *)
From Coquelicot Require Import Coquelicot.
From Verif Require Import Py PyLemmas MeshModel MeshSpec MeshProofs MeshSquare MeshSize MeshOther MeshFinite.

Lemma lin_derive (a b d v t : R) : is_derive (fun u => a + b * (d + v * u)) t (b * v).
Proof. auto_derive; auto. ring. Qed.
Lemma lin_derive0 (b t : R) : is_derive (fun u : R => b * u) t b.
Proof. auto_derive; auto. ring. Qed.
Lemma const_derive (a t : R) : is_derive (fun _ : R => a) t 0.
Proof. auto_derive; auto. Qed.
Lemma aff_derive (a b t : R) : is_derive (fun u : R => a + b * u) t b.
Proof. auto_derive; auto. ring. Qed.

Lemma reach_fun c ts s s' : reach c ts s -> reach c ts s' -> s = s'.
Proof. intros (a & H1 & H2) (b & H3 & H4). rewrite H1 in H3. injection H3 as <-. congruence. Qed.

Lemma mod4_k n : (4 <= n)%nat -> (n mod 4 = 0)%nat -> exists k, n = (4 * k)%nat /\ (1 <= k)%nat.
Proof. intros H1 H2. apply Nat.mod_divides in H2 as [k ->]; [|lia]. exists k. lia. Qed.

Lemma sq_all c : square_ic_slab c -> good_square c -> finite_domain c = false ->
  exists k, N_space c = (4 * k)%nat /\ (1 <= k)%nat /\
   (forall ts t, reach c (ts ++ [t]) (sq_state c k t)) /\ 
   (forall ts t s, reach c (ts ++ [t]) s -> s = sq_state c k t).
Proof.
  intros Hc (H4 & Hmod & Hq & Hm) Hf. destruct (mod4_k _ H4 Hmod) as (k & HN & Hk).
  exists k. split; [auto|]. split; [auto|]. split.
  - intros. apply reach_sq; auto.
  - intros ts t s Hr. eapply reach_fun; [exact Hr|]. apply reach_sq; auto.
Qed.

Lemma square_size_lemma c : square_ic_slab c -> good_square c -> finite_domain c = false ->
  forall ts t, exists s, reach c (ts ++ [t]) s /\ length (edges s) = (N_space c + 1)%nat /\ length (Dedges s) = (N_space c + 1)%nat.
Proof.
  intros Hc Hg Hf ts t. destruct (sq_all c Hc Hg Hf) as (k & HN & Hk & Hr & _).
  exists (sq_state c k t). split; auto. cbn [sq_state edges Dedges]. rewrite !tab_length, HN. auto.
Qed.

Lemma square_tangle_lemma c : square_ic_slab c -> good_square c -> finite_domain c = false ->
  0 < x0 c -> 0 <= speed c ->
  forall ts t, 0 <= t -> exists s, reach c (ts ++ [t]) s /\ increasing (edges s).
Proof.
  intros Hc Hg Hf Hx Hv ts t Ht. destruct (sq_all c Hc Hg Hf) as (k & HN & Hk & Hr & _).
  exists (sq_state c k t). split; auto. apply P_incr; auto; [apply Hg|].
  pose proof (Rmult_le_pos _ _ Hv Ht). unfold dx_slab. lra.
Qed.

Lemma square_pinned_lemma c : square_ic_slab c -> good_square c -> finite_domain c = false ->
  forall ts t, exists s, reach c (ts ++ [t]) s /\
    nth (N_space c / 4) (edges s) 0 = - x0 c /\ nth (3 * (N_space c / 4)) (edges s) 0 = x0 c /\
    (forall i, (N_space c / 4 <= i <= 3 * (N_space c / 4))%nat ->
       nth i (Dedges s) 0 = 0 /\ forall ts' t' s', reach c (ts' ++ [t']) s' -> nth i (edges s') 0 = nth i (edges s) 0).
Proof.
  intros Hc Hg Hf ts t. destruct (sq_all c Hc Hg Hf) as (k & HN & Hk & Hr & Hu).
  pose proof Hg as (_ & _ & Hq & _).
  exists (sq_state c k t). split; auto. rewrite HN. destruct (div4 k) as (_ & -> & _).
  cbn [sq_state edges Dedges].
  split; [|split; [|intros i Hi; split]].
  - rewrite nth_tab by lia. rewrite P_mid by lia. rewrite Nat.sub_diag, q_first by auto. ring.
  - rewrite nth_tab by lia. rewrite P_mid by lia. replace (3 * k - k)%nat with (2 * k)%nat by lia.
    rewrite q_last by auto. ring.
  - rewrite nth_tab by lia. apply (V_mid c k HN Hk); lia.
  - intros ts' t' s' H'. rewrite (Hu _ _ _ H'). cbn [sq_state edges]. rewrite !nth_tab by lia.
    rewrite !P_mid by lia. reflexivity.
Qed.

Lemma square_cone_lemma c : square_ic_slab c -> good_square c -> finite_domain c = false ->
  forall ts t, exists s, reach c (ts ++ [t]) s /\
    nth 0 (edges s) 0 = - (x0 c + 1/100 + speed c * t) /\
    nth (N_space c) (edges s) 0 = x0 c + 1/100 + speed c * t.
Proof.
  intros Hc Hg Hf ts t. destruct (sq_all c Hc Hg Hf) as (k & HN & Hk & Hr & Hu).
  pose proof Hg as (_ & _ & Hq & _). exists (sq_state c k t). split; auto. rewrite HN.
  cbn [sq_state edges]. rewrite !nth_tab by lia. rewrite P_first, P_last by auto. auto.
Qed.

Lemma square_particle_lemma c : square_ic_slab c -> good_square c -> finite_domain c = false -> speed c = 1 ->
  forall ts t s, 0 <= t -> reach c (ts ++ [t]) s ->
  forall x mu, - x0 c <= x <= x0 c -> -1 <= mu <= 1 ->
    nth 0 (edges s) 0 < x + mu * t < nth (N_space c) (edges s) 0.
Proof.
  intros Hc Hg Hf Hv ts t s Ht Hr x mu Hx Hmu.
  destruct (square_cone_lemma c Hc Hg Hf ts t) as (s' & Hr' & E1 & E2).
  rewrite (reach_fun _ _ _ _ Hr Hr'), E1, E2, Hv. nra.
Qed.

Lemma square_sym_lemma c : square_ic_slab c -> good_square c -> finite_domain c = false ->
  nodes_sym (thick_quad c) -> nodes_sym (thick_quad_edge c) ->
  forall ts t s i, reach c (ts ++ [t]) s -> (i <= N_space c)%nat ->
   nth (N_space c - i) (edges s) 0 = - nth i (edges s) 0.
Proof.
  intros Hc Hg Hf S1 S2 ts t s i Hr Hi. destruct (sq_all c Hc Hg Hf) as (k & HN & Hk & _ & Hu).
  pose proof Hg as (_ & _ & Hq & _). rewrite (Hu _ _ _ Hr). rewrite HN in *. cbn [sq_state edges].
  rewrite !nth_tab by lia. apply (P_sym c k); auto.
Qed.

Lemma square_deriv_lemma c : square_ic_slab c -> good_square c -> finite_domain c = false ->
  exists p : R -> nat -> R, forall ts t s i, reach c (ts ++ [t]) s -> (i <= N_space c)%nat ->
    nth i (edges s) 0 = p t i /\ is_derive (fun u => p u i) t (nth i (Dedges s) 0).
Proof.
  intros Hc Hg Hf. destruct (sq_all c Hc Hg Hf) as (k & HN & Hk & _ & Hu).
  exists (sq_pos k (x0 c) (speed c) (thick_quad c) (thick_quad_edge c)).
  intros ts t s i Hr Hi. rewrite (Hu _ _ _ Hr). cbn [sq_state edges Dedges].
  rewrite HN in Hi. rewrite !nth_tab by lia. split; auto.
  unfold sq_pos, sq_vel. destruct (_ <? _)%nat; [|destruct (_ <=? _)%nat]; auto using lin_derive, const_derive.
Qed.

(* shell *)
Lemma sh_all c : square_ic_sphere c -> (1 <= N_space c)%nat -> moving_flag c = true -> finite_domain c = false ->
   (forall ts t, reach c (ts ++ [t]) (sh_state c t)) /\
   (forall ts t s, reach c (ts ++ [t]) s -> s = sh_state c t).
Proof.
  intros Hc HN Hm Hf. split.
  - intros. apply reach_sh; auto.
  - intros ts t s Hr. eapply reach_fun; [exact Hr|]. apply reach_sh; auto.
Qed.
Lemma shell_lemma c : square_ic_sphere c -> (1 <= N_space c)%nat -> moving_flag c = true -> finite_domain c = false ->
  0 < x0 c -> 0 <= speed c ->
  forall ts t, 0 <= t -> exists s, reach c (ts ++ [t]) s /\ length (edges s) = (N_space c + 1)%nat /\
    increasing (edges s) /\ nth 0 (edges s) 0 = 0 /\
    nth (N_space c / 2 + 1) (edges s) 0 = x0 c /\
    (forall i, (i <= N_space c / 2 + 1)%nat -> nth i (Dedges s) 0 = 0) /\
    ((3 <= N_space c)%nat -> nth (N_space c) (edges s) 0 = x0 c + 1/100000 + speed c * t /\
                            nth (N_space c) (Dedges s) 0 = speed c) /\
    ((N_space c <= 2)%nat -> forall d, In d (Dedges s) -> d = 0).
Proof.
  intros Hc HN Hm Hf Hx Hv ts t Ht. destruct (sh_all c Hc HN Hm Hf) as (Hr & _).
  destruct (shell_nN c HN) as [B1 B2].
  assert (Hn0 : INR (N_space c / 2 + 1) <> 0) by (apply not_0_INR; lia).
  exists (sh_state c t). split; auto. cbn [sh_state edges Dedges]. rewrite tab_length.
  split; [auto|]. split; [apply sh_incr; auto; pose proof (Rmult_le_pos _ _ Hv Ht); unfold dx_shell; lra|].
  rewrite !nth_tab by lia. split.
  { unfold sh_pos. destruct (Nat.leb_spec 0 (N_space c / 2 + 1)); [|lia]. simpl (INR 0). field. auto. }
  split.
  { unfold sh_pos. rewrite Nat.leb_refl. field. auto. }
  split.
  { intros i Hi. rewrite nth_tab by lia. unfold sh_vel. destruct (Nat.leb_spec i (N_space c / 2 + 1)); [auto|lia]. }
  split.
  - intro H3. assert (Hlt : (N_space c / 2 + 1 < N_space c)%nat).
    { pose proof (Nat.div_mod (N_space c) 2). pose proof (Nat.mod_upper_bound (N_space c) 2). lia. }
    unfold sh_pos, sh_vel. destruct (Nat.leb_spec (N_space c) (N_space c / 2 + 1)); [lia|].
    assert (INR (N_space c - (N_space c / 2 + 1)) <> 0) by (apply not_0_INR; lia).
    unfold dx_shell. split; field; auto.
  - intros H2 d Hd. unfold tab in Hd. apply in_map_iff in Hd as (i & <- & Hi). apply in_seq in Hi.
    unfold sh_vel. destruct (Nat.leb_spec i (N_space c / 2 + 1)); auto.
    exfalso. assert (N_space c = 1 \/ N_space c = 2)%nat as [E|E] by lia; rewrite E in *; cbn in *; lia.
Qed.
Lemma shell_deriv_lemma c : square_ic_sphere c -> (1 <= N_space c)%nat -> moving_flag c = true -> finite_domain c = false ->
  exists p : R -> nat -> R, forall ts t s i, reach c (ts ++ [t]) s -> (i <= N_space c)%nat ->
    nth i (edges s) 0 = p t i /\ is_derive (fun u => p u i) t (nth i (Dedges s) 0).
Proof.
  intros Hc HN Hm Hf. destruct (sh_all c Hc HN Hm Hf) as (_ & Hu).
  exists (sh_pos (N_space c) (x0 c) (speed c)).
  intros ts t s i Hr Hi. rewrite (Hu _ _ _ Hr). cbn [sh_state edges Dedges].
  rewrite !nth_tab by lia. split; auto.
  unfold sh_pos, sh_vel. destruct (_ <=? _)%nat; auto using lin_derive, const_derive.
Qed.

(* plane *)
Lemma plane_collapse_lemma c : plane_thin c -> slab c = true -> (1 <= N_space c)%nat -> x0 c <> 0 -> moving_flag c = true ->
  (forall ts, exists s, reach c (ts ++ [0]) s /\ length (edges s) = (N_space c + 1)%nat /\ forall e, In e (edges s) -> e = 0) /\
  (forall ts t s i, reach c (ts ++ [t]) s -> (i <= N_space c)%nat -> nth i (edges s) 0 = nth i (Dedges s) 0 * t).
Proof.
  intros Hc Hs HN Hx Hm. split.
  - intro ts. destruct (reach_plane c HN Hx ts 0 Hc Hs Hm) as (s & Hr & E & D). exists s. split; auto.
    rewrite E, tab_length. split; auto. intros e He. unfold tab in He. apply in_map_iff in He as (i & <- & _). ring.
  - intros ts t s i Hr Hi. destruct (reach_plane c HN Hx ts t Hc Hs Hm) as (s' & Hr' & E & D).
    rewrite (reach_fun _ _ _ _ Hr Hr'), E, D. rewrite !nth_tab by lia. reflexivity.
Qed.
Lemma plane_deriv_lemma c : plane_thin c -> slab c = true -> (1 <= N_space c)%nat -> x0 c <> 0 -> moving_flag c = true ->
  exists p : R -> nat -> R, forall ts t s i, reach c (ts ++ [t]) s -> (i <= N_space c)%nat ->
    nth i (edges s) 0 = p t i /\ is_derive (fun u => p u i) t (nth i (Dedges s) 0).
Proof.
  intros Hc Hs HN Hx Hm. exists (fun t i => pl_vel c i * t).
  intros ts t s i Hr Hi. destruct (reach_plane c HN Hx ts t Hc Hs Hm) as (s' & Hr' & E & D).
  rewrite (reach_fun _ _ _ _ Hr Hr'), E, D. rewrite !nth_tab by lia. split; auto using lin_derive0.
Qed.

(* boundary *)
Lemma even_m n : (2 <= n)%nat -> (n mod 2 = 0)%nat -> exists m, n = (2 * m)%nat /\ (1 <= m)%nat.
Proof. intros H1 H2. apply Nat.mod_divides in H2 as [k ->]; [|lia]. exists k. lia. Qed.
Lemma boundary_lemma c : boundary_thin c -> (2 <= N_space c)%nat -> (N_space c mod 2 = 0)%nat ->
  moving_flag c = true -> 0 < tfinal c ->
  forall ts t, exists s, reach c (ts ++ [t]) s /\ length (edges s) = (N_space c + 1)%nat /\
    nth 0 (edges s) 0 = - x0 c /\ nth (N_space c) (edges s) 0 = x0 c /\
    nth (N_space c / 2) (edges s) 0 = - fake_sedov_v c * t /\
    (0 <= t <= tfinal c -> Rabs (fake_sedov_v c) * tfinal c < x0 c -> increasing (edges s)).
Proof.
  intros Hc H2 Hev Hm Ht ts t. destruct (even_m _ H2 Hev) as (m & HN & Hm1).
  assert (Htf : tfinal c <> 0) by lra.
  exists (bd_state c m (fake_sedov_v c) t). split; [apply reach_bd; auto|].
  rewrite HN. replace ((2 * m) / 2)%nat with m by (symmetry; replace (2 * m)%nat with (m * 2)%nat by lia; apply Nat.div_mul; lia).
  cbn [bd_state edges]. rewrite tab_length, !nth_tab by lia.
  rewrite bd_first, bd_last, bd_mid by auto. repeat split; auto.
  intros. apply bd_incr; auto.
Qed.
Lemma boundary_deriv_lemma c : boundary_thin c -> (2 <= N_space c)%nat -> (N_space c mod 2 = 0)%nat ->
  moving_flag c = true -> 0 < tfinal c ->
  exists p : R -> nat -> R, forall ts t s i, reach c (ts ++ [t]) s -> (i <= N_space c)%nat ->
    nth i (edges s) 0 = p t i /\ is_derive (fun u => p u i) t (nth i (Dedges s) 0).
Proof.
  intros Hc H2 Hev Hm Ht. destruct (even_m _ H2 Hev) as (m & HN & Hm1).
  assert (Htf : tfinal c <> 0) by lra. exists (bd_pos c m (fake_sedov_v c)).
  intros ts t s i Hr Hi. assert (Hr' : reach c (ts ++ [t]) (bd_state c m (fake_sedov_v c) t)) by (apply reach_bd; auto).
  rewrite (reach_fun _ _ _ _ Hr Hr'). rewrite HN in Hi. cbn [bd_state edges Dedges]. rewrite !nth_tab by lia. split; auto.
  unfold bd_pos. apply aff_derive.
Qed.
Lemma boundary_final_lemma c : boundary_thin c -> (2 <= N_space c)%nat -> (N_space c mod 2 = 0)%nat ->
  moving_flag c = true -> 0 < tfinal c ->
  forall ts s i, reach c (ts ++ [tfinal c]) s -> (S i <= N_space c)%nat ->
    nth (S i) (edges s) 0 - nth i (edges s) 0 =
    2 * (if (i <? N_space c / 2)%nat then x0 c - fake_sedov_v c * tfinal c else x0 c + fake_sedov_v c * tfinal c) / INR (N_space c).
Proof.
  intros Hc H2 Hev Hm Ht ts s i Hr Hi. destruct (even_m _ H2 Hev) as (m & HN & Hm1).
  assert (Htf : tfinal c <> 0) by lra.
  assert (Hr' : reach c (ts ++ [tfinal c]) (bd_state c m (fake_sedov_v c) (tfinal c))) by (apply reach_bd; auto).
  rewrite (reach_fun _ _ _ _ Hr Hr'). rewrite HN in *.
  replace ((2 * m) / 2)%nat with m by (symmetry; replace (2 * m)%nat with (m * 2)%nat by lia; apply Nat.div_mul; lia).
  cbn [bd_state edges]. rewrite !nth_tab by lia.
  assert (MR : INR m <> 0) by (apply not_0_INR; lia).
  assert (E : forall j, bd_pos c m (fake_sedov_v c) (tfinal c) j = bd_final c m (fake_sedov_v c) j).
  { intro j. unfold bd_pos, bd_vel. field. auto. }
  rewrite !E, mult_INR. simpl (INR 2). unfold bd_final.
  destruct (Nat.ltb_spec i m); destruct (Nat.ltb_spec (S i) m); try lia.
  - rewrite S_INR. field; auto.
  - replace m with (S i) in * by lia. rewrite Nat.sub_diag, S_INR in *. simpl (INR 0). field; auto.
  - replace (S i - m)%nat with (S (i - m)) by lia. rewrite S_INR. field; auto.
Qed.
Lemma boundary_odd_lemma c : boundary_thin c -> (3 <= N_space c)%nat -> (N_space c mod 2 = 1)%nat -> init c = Err ValueError.
Proof.
  intros (Hl & Ht & Hz) H3 Hodd. unfold init. destruct (Nat.ltb_spec (length (source_type c)) 6); [lia|].
  unfold init_dispatch. rewrite !(st_all_zero _ _ _ Hz) by discriminate. rewrite Ht, Hz. cbn [orb negb bind].
  unfold boundary_source_init. cbv zeta. rewrite !linspace_tab, drop_last_tab, app_tab.
  assert (E : (N_space c = 2 * (N_space c / 2) + 1)%nat).
  { pose proof (Nat.div_mod (N_space c) 2). lia. }
  set (m := (N_space c / 2)%nat) in *.
  unfold vsub, vop. rewrite !tab_length.
  destruct (Nat.eqb_spec (m + 1 - 1 + (m + 1)) (N_space c + 1)); [lia|].
  match goal with |- context [match tab ?a ?f with _ => _ end] => destruct (tab a f) as [|u [|u' l]] eqn:E1 end.
  - exfalso. apply (f_equal (@length R)) in E1. rewrite tab_length in E1. cbn [length] in E1. lia.
  - exfalso. apply (f_equal (@length R)) in E1. rewrite tab_length in E1. cbn [length] in E1. lia.
  - match goal with |- context [match tab ?a ?f with _ => _ end] => destruct (tab a f) as [|w [|w' l']] eqn:E2 end; try reflexivity.
    exfalso. apply (f_equal (@length R)) in E2. rewrite tab_length in E2. cbn [length] in E2. lia.
Qed.
Lemma boundary_static_mid c : boundary_thin c -> (2 <= N_space c)%nat -> (N_space c mod 2 = 0)%nat ->
  moving_flag c = false -> tfinal c <> 0 -> exists s, init c = Ok s /\ nth (N_space c / 2) (edges s) 0 = 0.
Proof.
  intros (Hl & Ht & Hz) H2 Hev Hm Htf. destruct (even_m _ H2 Hev) as (m & HN & Hm1).
  unfold init. destruct (Nat.ltb_spec (length (source_type c)) 6); [lia|].
  unfold init_dispatch. rewrite !(st_all_zero _ _ _ Hz) by discriminate. rewrite Ht, Hz. cbn [orb negb bind].
  rewrite (boundary_ok c m HN Hm1 Htf 0); [|cbn; now rewrite Hm].
  cbn [bind]. unfold set_Dconst, state0. cbn [moving Dedges]. rewrite Hm.
  unfold move. cbn [moving set_moving]. rewrite !(st_all_zero _ _ _ Hz) by discriminate. rewrite Hz. cbn [orb andb].
  unfold advance, vadd. cbn [edges0 Dedges set_moving]. rewrite vscale_tab, vop_tab. cbn [bind].
  eexists. split; [reflexivity|]. cbn [edges set_moving set_Dedges set_edges].
  rewrite HN. replace ((2 * m) / 2)%nat with m by (symmetry; replace (2 * m)%nat with (m * 2)%nat by lia; apply Nat.div_mul; lia).
  rewrite nth_tab by lia. pose proof (bd_mid c m HN Hm1 Htf 0 (tfinal c)) as E. unfold bd_pos in E. rewrite E. ring.
Qed.

(* accelerating mesh *)
Lemma accel_lemma c : square_src_slab c -> good_square c -> finite_domain c = true -> move_func c = 0%nat -> t0 c < tfinal c ->
  exists p v : R -> nat -> R,
    (forall ts s t, reach c ts s -> t0 c <= t ->
       nth (N_space c) (edges s) 0 < domain_width c / 2 - 1/100 ->
       exists s', move c t s = Ok s' /\ length (edges s') = (N_space c + 1)%nat /\
        forall i, (i <= N_space c)%nat -> nth i (edges s') 0 = p t i /\ nth i (Dedges s') 0 = v t i) /\
    (forall t i, is_derive (fun u => p u i) t (v t i)) /\
    (forall i, exists a, forall t, v t i = a * (t - t0 c) + v (t0 c) i) /\
    (forall i, (i <= N_space c)%nat -> p (tfinal c) i = - pad c + INR i * (2 * pad c / INR (N_space c))) /\
    (x0 c + 1/100 < domain_width c / 2 - 1/100 -> forall t, t < t0 c ->
       exists q : R -> nat -> R, (exists s', reach c [t] s' /\ forall i, (i <= N_space c)%nat -> nth i (edges s') 0 = q t i) /\
         (forall i u, is_derive (fun w => q w i) u (v (t0 c) i)) /\ forall i, p (t0 c) i = q (t0 c) i).
Proof.
  intros Hc (H4 & Hmod & Hq & Hm) Hf Hmf Ht. destruct (mod4_k _ H4 Hmod) as (k & HN & Hk).
  exists (acc_pos c k), (acc_vel c k). rewrite HN. repeat apply conj.
  - intros ts s t Hr Hle Hlt. destruct (late_reach c k HN Hk Hq Hc Hf Hm Hmf Ht ts s t Hr Hlt Hle) as (s' & M & E & D).
    exists s'. rewrite E, D, tab_length. repeat split; auto; rewrite nth_tab by lia; auto.
  - intros. apply acc_deriv.
  - intro i. exists (acc c k i). intro t. unfold acc_vel. ring.
  - intros i Hi. rewrite acc_pos_final by auto. reflexivity.
  - intros Hw t Hlt. exists (sq_pos k (x0 c) (speed c) (thick_quad c) (thick_quad_edge c)).
    destruct (early_reach_first c k HN Hk Hq Hc Hf Hm Hmf t Hlt Hw) as (s' & Hr & E).
    repeat apply conj.
    + exists s'. split; auto. intros i Hi. rewrite E, nth_tab by lia. reflexivity.
    + intros i u. rewrite acc_vel_start. unfold sq_pos, sq_vel.
      destruct (_ <? _)%nat; [|destruct (_ <=? _)%nat]; auto using lin_derive, const_derive.
    + intro i. apply acc_pos_start.
Qed.

(* ------------------------------------------------------------------ witnesses *)
Lemma wspeed_sq N x tf mv sl fin dw : speed (wcfg N x tf mv [0;1;0;0;0;0]%Z sl fin dw 0) = 1.
Proof. unfold speed, wcfg, all_zero. cbn. now rewrite andb_false_r. Qed.
Lemma wspeed_src N x tf mv sl fin dw : speed (wcfg N x tf mv [0;0;1;0;0;0]%Z sl fin dw 0) = 1.
Proof. unfold speed, wcfg, all_zero. cbn. now rewrite andb_false_r. Qed.

Lemma linspace_nodes n : (2 <= n)%nat -> nodes_ok n (linspace (-1) 1 n).
Proof.
  intro H. rewrite linspace_tab. unfold nodes_ok. rewrite tab_length, !nth_tab by lia.
  assert (0 < INR (n - 1)) by (apply INR_pos; lia).
  repeat split; auto.
  - apply incr_of_steps. rewrite tab_length. intros i Hi. rewrite !nth_tab by lia. rewrite S_INR.
    assert (0 < (1 - -1) / INR (n - 1)) by (apply Rdiv_lt_0_compat; lra). lra.
  - simpl (INR 0). field. lra.
  - field. lra.
Qed.
Lemma linspace_sym n : (2 <= n)%nat -> nodes_sym (linspace (-1) 1 n).
Proof.
  intros H i. rewrite linspace_tab, tab_length. intro Hi. rewrite !nth_tab by lia.
  assert (0 < INR (n - 1)) by (apply INR_pos; lia). rewrite minus_INR by lia. field. lra.
Qed.
Lemma wgood_square N x tf stp sl fin dw v0 : (4 <= N)%nat -> (N mod 4 = 0)%nat -> good_square (wcfg N x tf true stp sl fin dw v0).
Proof.
  intros H1 H2. unfold good_square, mesh_nodes_ok, wcfg. cbn [N_space thick_quad thick_quad_edge moving_flag].
  repeat split; auto; try (apply linspace_nodes); destruct (mod4_k _ H1 H2) as (k & -> & Hk);
  destruct (div4 k) as (D1 & D2 & _); rewrite ?D1, ?D2; lia.
Qed.
Lemma wsquare_ic N x tf mv fin dw : square_ic_slab (wcfg N x tf mv [0;1;0;0;0;0]%Z true fin dw 0).
Proof. unfold square_ic_slab, thin_square_slab, st_is, st, wcfg; cbn. repeat split; auto. Qed.
Lemma wsquare_src N x tf mv fin dw : square_src_slab (wcfg N x tf mv [0;0;1;0;0;0]%Z true fin dw 0).
Proof. unfold square_src_slab, thin_square_slab, st_is, st, wcfg; cbn. repeat split; auto. Qed.
Lemma wshell N x tf mv dw : square_ic_sphere (wcfg N x tf mv [0;1;0;0;0;0]%Z false false dw 0).
Proof. unfold square_ic_sphere, st_is, st, wcfg; cbn. repeat split; auto. Qed.
Lemma wplane N x tf mv sl dw : plane_thin (wcfg N x tf mv [1;0;0;0;0;0]%Z sl false dw 0).
Proof. unfold plane_thin, st_is, st, wcfg; cbn. repeat split; auto. Qed.
Lemma wboundary N x tf mv dw v0 : boundary_thin (wcfg N x tf mv [0;0;0;0;0;0]%Z true false dw v0).
Proof. unfold boundary_thin, all_zero, wcfg; cbn. repeat split; auto. Qed.
Lemma wgauss N x tf mv dw : gaussian_thin (wcfg N x tf mv [0;0;0;1;0;0]%Z true false dw 0).
Proof. unfold gaussian_thin, st_is, st, wcfg; cbn. repeat split; auto. Qed.
Lemma wmms N x tf mv dw : unhandled_thin (wcfg N x tf mv [0;0;0;0;1;0]%Z true false dw 0).
Proof. unfold unhandled_thin, st_is, st, all_zero, wcfg; cbn. repeat split; auto. Qed.

(** history dependence of the accelerating mesh *)
Lemma accel_history_witness :
  exists c t1 t2 s s', square_src_slab c /\ good_square c /\ finite_domain c = true /\ t0 c < tfinal c /\
    reach c [t1; t2] s /\ reach c [t2] s' /\ edges s <> edges s'.
Proof.
  pose (c := wcfg 4 (1/2) 2 true [0;0;1;0;0;0]%Z true true 100 0).
  assert (Hg : good_square c) by (apply wgood_square; auto).
  assert (Hc : square_src_slab c) by apply wsquare_src.
  pose proof Hg as (_ & _ & Hq & Hm).
  assert (H2 : t0 c < tfinal c) by (cbn; lra).
  assert (Hsp : speed c = 1) by apply wspeed_src.
  assert (X : x0 c = 1/2) by reflexivity. assert (T0 : t0 c = 1) by reflexivity. assert (TF : tfinal c = 2) by reflexivity.
  assert (DW : domain_width c = 100) by reflexivity. assert (PD : pad c = 5) by reflexivity.
  assert (QE0 : nth 0 (thick_quad_edge c) 0 = -1) by apply Hq.
  assert (QE1 : nth 1 (thick_quad_edge c) 0 = 1) by apply Hq.
  assert (Q0 : nth 0 (thick_quad c) 0 = -1) by apply Hq.
  exists c, (3/2), (1/2).
  assert (HN : N_space c = (4 * 1)%nat) by reflexivity.
  destruct (late_then_early c 1 HN (le_n 1) Hq Hc eq_refl Hm eq_refl H2 (3/2) (1/2)) as (s & Hr & E).
  1,2: rewrite T0; lra.
  { rewrite X, DW. unfold dx_slab. lra. }
  { unfold acc_pos, acc. rewrite DW, T0, TF. unfold fin_pos. rewrite PD. unfold sq_pos, sq_vel. cbn [Nat.ltb Nat.leb Nat.mul Nat.add Nat.sub].
    rewrite Hsp, X, QE1. cbn [INR]. unfold dx_slab. lra. }
  destruct (early_reach_first c 1 HN (le_n 1) Hq Hc eq_refl Hm eq_refl (1/2)) as (s' & Hr' & E').
  { rewrite T0; lra. }
  { rewrite X, DW. unfold dx_slab. lra. }
  exists s, s'. repeat split; auto. 1,2: apply Hg. all: try apply Hq.
  intro C. rewrite E, E' in C. apply (f_equal (fun l => nth 1 l 0)) in C. rewrite !nth_tab in C by lia.
  unfold acc_vel, acc in C. rewrite T0, TF in C. unfold fin_pos in C. rewrite PD in C. unfold sq_pos, sq_vel in C.
  cbn [Nat.ltb Nat.leb Nat.mul Nat.add Nat.sub] in C. rewrite X, Q0 in C. cbn [INR] in C. lra.
Qed.

Lemma stop_history_witness :
  exists c t1 t2 s s', square_ic_slab c /\ good_square c /\ finite_domain c = true /\ t2 < tfinal c /\
    reach c [t1; t2] s /\ reach c [t2] s' /\ edges s <> edges s'.
Proof.
  pose (c := wcfg 4 (1/2) 10 true [0;1;0;0;0;0]%Z true true 4 0).
  assert (Hg : good_square c) by (apply wgood_square; auto).
  assert (Hc : square_ic_slab c) by apply wsquare_ic.
  pose proof Hg as (_ & _ & Hq & Hm).
  assert (Hsp : speed c = 1) by apply wspeed_sq.
  assert (X : x0 c = 1/2) by reflexivity. assert (TF : tfinal c = 10) by reflexivity.
  assert (DW : domain_width c = 4) by reflexivity.
  destruct (fin_schedules c Hc eq_refl 1 eq_refl (le_n 1) Hq Hm 2 3) as [(s & Hr & E) (s' & Hr' & E')].
  1,2: rewrite TF; lra. 1,2: rewrite X, DW; unfold dx_slab; try rewrite Hsp; lra.
  exists c, 2, 3, s, s'. repeat split; auto. all: try apply Hq. { rewrite TF; lra. }
  intro C. rewrite E, E' in C. apply (f_equal (fun l => nth 4 l 0)) in C. rewrite !nth_tab in C by lia.
  change 4%nat with (4 * 1)%nat in C. rewrite !P_last in C by auto. rewrite Hsp in C. lra.
Qed.

(** N = 6 square source: the constructor succeeds with six edges and no call ever complains *)
Lemma square_source_silent_witness :
  exists c s, square_src_slab c /\ finite_domain c = false /\ N_space c = 6%nat /\
    length (thick_quad c) = (N_space c / 2 + 1)%nat /\ length (thick_quad_edge c) = (N_space c / 4 + 1)%nat /\
    init c = Ok s /\ length (edges s) = 6%nat /\ forall ts, moves c ts s = Ok s.
Proof.
  pose (c := wcfg 6 (1/2) 10 true [0;0;1;0;0;0]%Z true false 4 0).
  assert (H : exists s, init c = Ok s).
  { unfold init, init_dispatch, thin_square_init_legendre, square_derivs. cbn -[vdivs setslice fillslice speed].
    unfold vdivs. destruct (Req_EM_T _ 0) as [e|e].
    - exfalso. lra.
    - cbn -[speed]. eexists. reflexivity. }
  destruct H as [s Hs]. exists c, s. split; [apply wsquare_src|]. split; [reflexivity|]. split; [reflexivity|].
  split; [reflexivity|]. split; [reflexivity|]. split; [exact Hs|].
  assert (Ls : length (edges s) = 6%nat).
  { unfold init in Hs. destruct (_ <? _)%nat; [discriminate|]. apply bind_ok in Hs as (s1 & H1 & Hs).
    apply square_dispatch_length in H1 as (L & _); [|apply wsquare_src|reflexivity|reflexivity|reflexivity].
    cbn [bind] in Hs. cbv zeta in Hs. cbn [moving set_Dconst] in Hs.
    destruct (moving s1) eqn:Em.
    - injection Hs as <-. exact L.
    - apply bind_ok in Hs as (s3 & H3 & Hs). injection Hs as <-.
      rewrite move_noop in H3; auto. injection H3 as <-. exact L. }
  split; [exact Ls|]. intro ts. apply moves_noop; auto.
Qed.

(** infinite-domain square source: reports a velocity, never moves *)
Lemma src_infinite_lemma c : square_src_slab c -> good_square c -> finite_domain c = false ->
  exists s0, init c = Ok s0 /\ nth 0 (Dedges s0) 0 = - speed c /\ nth (N_space c) (Dedges s0) 0 = speed c /\
    forall ts, moves c ts s0 = Ok s0.
Proof.
  intros Hc (H4 & Hmod & Hq & Hm) Hf. destruct (mod4_k _ H4 Hmod) as (k & HN & Hk).
  pose proof Hc as (Ht & H11 & H21).
  eexists. split; [apply (square_init_ok c k); auto; rewrite H11, H21; reflexivity|].
  cbn [Dedges]. rewrite HN, !nth_tab by lia. unfold sq_vel. split; [|split].
  - destruct (Nat.ltb_spec 0 k); [|lia]. rewrite (qe_first c) by auto. field.
  - destruct (Nat.ltb_spec (4 * k) k); [lia|]. destruct (Nat.leb_spec (4 * k) (3 * k)); [lia|].
    replace (4 * k - 3 * k)%nat with k by lia. rewrite (qe_last c k) by auto. field.
  - intro ts. destruct Ht as (Hl & _ & _ & H01 & H02 & _). apply moves_noop; auto.
    + now rewrite Hf, andb_false_r.
    + apply (not_all_zero c 2); auto; lia.
Qed.
Lemma gaussian_full_lemma c :
  gaussian_thin c -> (1 <= N_space c)%nat -> 0 < x0 c -> moving_flag c = true -> slab c = true ->
  exists s0, init c = Ok s0 /\ edges s0 = linspace (- x0 c) (x0 c) (N_space c + 1) /\
    nth (N_space c) (Dedges s0) 0 = speed c /\ nth 0 (Dedges s0) 0 = - speed c /\
    forall ts, moves c ts s0 = Ok s0.
Proof.
  intros Hg HN Hx Hm Hs. destruct (gaussian_lemma c Hg HN Hx Hm Hs) as (s0 & Hi & E & D & M).
  assert (INR (N_space c) <> 0) by (apply not_0_INR; lia).
  exists s0. rewrite D, !nth_tab by lia. repeat split; auto; unfold pl_vel; try field; auto.
  simpl (INR 0). field. auto.
Qed.

(** static = moving fails for the boundary initialiser *)
Lemma static_final_witness :
  exists c s s1 s2, boundary_thin c /\ init (with_moving c false) = Ok s /\ init (with_moving c true) = Ok s1 /\
    move (with_moving c true) (tfinal c) s1 = Ok s2 /\ edges s2 <> edges s.
Proof.
  pose (c := wcfg 2 1 1 true [0;0;0;0;0;0]%Z true false 4 (1/2)).
  assert (HB : forall b, boundary_thin (with_moving c b)) by (intro; unfold boundary_thin, all_zero; cbn; auto).
  destruct (boundary_static_mid (with_moving c false) (HB false)) as (s & Hs & E); auto. { cbn; lra. }
  destruct (boundary_lemma (with_moving c true) (HB true)) with (ts := @nil R) (t := 1) as (s2 & (s1 & Hi & Hmv) & _ & _ & _ & E2 & _); auto.
  { cbn; lra. }
  cbn [app moves] in Hmv. apply bind_ok in Hmv as (s3 & M & Hmv). injection Hmv as <-.
  exists c, s, s1, s3. split; [apply wboundary|]. repeat split; auto.
  intro C. rewrite C in E2. cbn [N_space with_moving c wcfg] in *. rewrite E in E2. cbn in E2. lra.
Qed.

Lemma square_hist c : square_ic_slab c -> good_square c -> finite_domain c = false -> last_time_only c.
Proof.
  intros Hc Hg Hf. destruct (sq_all c Hc Hg Hf) as (k & HN & Hk & Hr & Hu). split; [eauto|].
  intros ts ts' t s s' H1 H2. rewrite (Hu _ _ _ H1), (Hu _ _ _ H2). auto.
Qed.
Lemma shell_hist c : square_ic_sphere c -> (1 <= N_space c)%nat -> moving_flag c = true -> finite_domain c = false -> last_time_only c.
Proof.
  intros Hc HN Hm Hf. destruct (sh_all c Hc HN Hm Hf) as (Hr & Hu). split; [eauto|].
  intros ts ts' t s s' H1 H2. rewrite (Hu _ _ _ H1), (Hu _ _ _ H2). auto.
Qed.
Lemma plane_hist c : plane_thin c -> slab c = true -> (1 <= N_space c)%nat -> x0 c <> 0 -> moving_flag c = true -> last_time_only c.
Proof.
  intros Hc Hs HN Hx Hm. split.
  - intros ts t. destruct (reach_plane c HN Hx ts t Hc Hs Hm) as (s & Hr & _). eauto.
  - intros ts ts' t s s' H1 H2.
    destruct (reach_plane c HN Hx ts t Hc Hs Hm) as (a & Ha & E & D).
    destruct (reach_plane c HN Hx ts' t Hc Hs Hm) as (b & Hb & E' & D').
    rewrite (reach_fun _ _ _ _ H1 Ha), (reach_fun _ _ _ _ H2 Hb), E, E', D, D'. auto.
Qed.
Lemma boundary_hist c : boundary_thin c -> (2 <= N_space c)%nat -> (N_space c mod 2 = 0)%nat ->
  moving_flag c = true -> 0 < tfinal c -> last_time_only c.
Proof.
  intros Hc H2 Hev Hm Ht. destruct (even_m _ H2 Hev) as (m & HN & Hm1).
  assert (Htf : tfinal c <> 0) by lra.
  assert (Hr : forall ts t, reach c (ts ++ [t]) (bd_state c m (fake_sedov_v c) t)) by (intros; apply reach_bd; auto).
  split; [eauto|]. intros ts ts' t s s' A B.
  rewrite (reach_fun _ _ _ _ A (Hr ts t)), (reach_fun _ _ _ _ B (Hr ts' t)). auto.
Qed.

(** no call ever flips the moving switch *)
Lemma middle_moving c s s' : move_middle_edges c s = Ok s' -> moving s' = moving s.
Proof. unfold move_middle_edges. intro H. inv_binds; reflexivity. Qed.
Lemma func2_moving c s t s' : thick_square_moving_func_2 c s t = Ok s' -> moving s' = moving s.
Proof. unfold thick_square_moving_func_2. intro H. cbv zeta in H.
  do 6 (apply bind_ok in H as (? & _ & H)). injection H as <-. reflexivity. Qed.
Lemma sqrt_moving c s t s' : sqrt_t_move c s t = Ok s' -> moving s' = moving s.
Proof. unfold sqrt_t_move. intro H. cbv zeta in H.
  do 2 (apply bind_ok in H as (? & _ & H)). injection H as <-. reflexivity. Qed.
Lemma move_moving c t s s' : move c t s = Ok s' -> moving s' = moving s.
Proof.
  unfold move. intro H. inv_binds; try reflexivity; cbn in *;
    try (match goal with H : move_middle_edges _ _ = Ok _ |- _ => apply middle_moving in H end);
    try (match goal with H : thick_square_moving_func_2 _ _ _ = Ok _ |- _ => apply func2_moving in H end);
    try (match goal with H : sqrt_t_move _ _ _ = Ok _ |- _ => apply sqrt_moving in H end); congruence.
Qed.
Lemma moves_moving c ts s s' : moves c ts s = Ok s' -> moving s' = moving s.
Proof.
  revert s. induction ts as [|t ts IH]; cbn [moves]; intros s H; [now injection H as <-|].
  apply bind_ok in H as (s1 & M & H). rewrite (IH _ H). eapply move_moving; eauto.
Qed.

(** finite domain: freeze and jump, from the settings *)
Lemma freeze_lemma c ts s ts' s' : square_ic_slab c -> finite_domain c = true -> moving_flag c = true ->
  reach c ts s -> (exists r, getneg (edges s) 1 = Ok r /\ domain_width c / 2 - 1/100 <= r) ->
  ts' <> [] -> (forall t, In t ts' -> t <> tfinal c) -> moves c ts' s = Ok s' ->
  edges s' = edges s /\ forall d, In d (Dedges s') -> d = 0.
Proof.
  intros Hc Hf Hm (s0 & Hi & Mv) (r & Hr & Hle) Hne Hts Ms.
  assert (Hmv : moving s = true).
  { rewrite (moves_moving _ _ _ _ Mv), (init_moving _ _ Hi). exact Hm. }
  assert (Hst : stopped c s = Ok true).
  { unfold stopped. rewrite Hr. cbn [bind]. rewrite stop_test, Rltb_false by lra. reflexivity. }
  destruct (fin_frozen c Hc Hf ts' s Hmv Hst Hts) as (s1 & M1 & E1 & _ & _ & D1).
  rewrite M1 in Ms. injection Ms as <-. split; auto. intros d Hd. rewrite (D1 Hne) in Hd.
  unfold vscale in Hd. apply in_map_iff in Hd as (z & <- & _). ring.
Qed.
Lemma jump_lemma c ts s : square_ic_slab c -> finite_domain c = true -> moving_flag c = true -> reach c ts s ->
  exists s', move c (tfinal c) s = Ok s' /\ Dedges s' = Dedges s /\
    edges s' = linspace (- domain_width c / 2) (domain_width c / 2) (N_space c + 1).
Proof.
  intros Hc Hf Hm (s0 & Hi & Mv).
  assert (Hmv : moving s = true).
  { rewrite (moves_moving _ _ _ _ Mv), (init_moving _ _ Hi). exact Hm. }
  rewrite (fin_jump c Hc Hf s Hmv). eexists. split; [reflexivity|]. split; reflexivity.
Qed.
