(** The sqrt(t) mover on the finite-domain square-source mesh, over every history of calls. *)
From Coquelicot Require Import Coquelicot.
From Verif Require Import Py PyLemmas MeshModel MeshSpec MeshProofs MeshSquare MeshOther MeshFinite MeshFinal.

Definition sq_floor (t : R) : R := sqrt (Rmax t (1 / 10 ^ 10)).
Lemma eps_pos : 0 < 1 / 10 ^ 10. Proof. apply Rdiv_lt_0_compat; [lra|]. apply pow_lt. lra. Qed.
Lemma sqrt_floor_eq t : sqrt_floor t = sq_floor t.
Proof.
  unfold sqrt_floor, sq_floor, Rgtb. destruct (Rltb_spec (1 / 10 ^ 10) t).
  - rewrite Rmax_left by lra. auto.
  - rewrite Rmax_right by lra. auto.
Qed.
Lemma sq_floor_pos t : 0 < sq_floor t.
Proof. apply sqrt_lt_R0. pose proof eps_pos. pose proof (Rmax_r t (1 / 10 ^ 10)). lra. Qed.

Section S.
Variable c : cfg.
Variable k : nat.
Hypothesis HN : N_space c = (4 * k)%nat.
Hypothesis Hk : (1 <= k)%nat.
Hypothesis Hq : mesh_nodes_ok c.
Hypothesis Hc : square_src_slab c.
Hypothesis Hf : finite_domain c = true.
Hypothesis Hm : moving_flag c = true.
Hypothesis Hmf : move_func c = 2%nat.
Let P := sq_pos k (x0 c) (speed c) (thick_quad c) (thick_quad_edge c).
Let V := sq_vel k (speed c) (thick_quad_edge c).
Let n := (4 * k + 1)%nat.
Definition SInv (s : state) : Prop :=
  moving s = true /\ edges0 s = tab n (P 0) /\ Dedges_const s = tab n V /\ exists g, edges s = tab n g.
Lemma SInv_init : exists s0, init c = Ok s0 /\ SInv s0.
Proof.
  eexists. split.
  - apply (square_init_ok c k); auto; [apply Hc|]. destruct Hc as (_ & -> & ->). reflexivity.
  - repeat split. exists (P 0). reflexivity.
Qed.
Lemma SInv_move s t : SInv s ->
  exists s', move c t s = Ok s' /\ SInv s' /\
   (nth (4 * k) (edges s) 0 < domain_width c / 2 - 1/100 ->
     edges s' = tab n (fun i => P 0 i + V i * move_factor c * sq_floor t) /\
     Dedges s' = tab n (fun i => V i * move_factor c * (1/2) / sq_floor t)) /\
   (~ nth (4 * k) (edges s) 0 < domain_width c / 2 - 1/100 -> edges s' = edges s /\ Dedges s' = tab n (fun _ => 0)).
Proof.
  intros (Mv & E0 & DC & g & Eg).
  destruct Hc as ((_ & _ & _ & H01 & H02 & _ & _) & H11 & H21).
  unfold move. rewrite Mv, H01, H02, H11, H21, Hf. cbn [orb andb].
  rewrite (stopped_tab c s (4 * k) g Eg), stop_test. cbn [bind].
  rewrite Eg, nth_tab by lia.
  destruct (Rltb_spec (g (4 * k)%nat) (domain_width c / 2 - 1/100)) as [Hl|Hl]; cbn [negb].
  - rewrite Hmf. destruct (sqrt_t_lemma c s t n _ _ E0 DC) as (s' & M & E & D).
    exists s'. split; [auto|].
    assert (X : moving s' = moving s /\ edges0 s' = edges0 s /\ Dedges_const s' = Dedges_const s).
    { unfold sqrt_t_move in M. apply bind_ok in M as (d & _ & M). apply bind_ok in M as (e & _ & M).
      injection M as <-. cbn. auto. }
    destruct X as (X1 & X2 & X3). rewrite sqrt_floor_eq in *. split; [|split].
    + unfold SInv. rewrite X1, X2, X3. eauto.
    + intros _. auto.
    + intro; contradiction.
  - eexists. split; [reflexivity|]. split; [|split].
    + unfold SInv. cbn. eauto.
    + intro; exfalso; lra.
    + intros _. cbn. rewrite DC, vscale_tab. split; auto. apply tab_ext. intros. ring.
Qed.
Lemma SInv_moves ts s : SInv s -> exists s', moves c ts s = Ok s' /\ SInv s'.
Proof.
  revert s. induction ts as [|t ts IH]; intros s Hs; [exists s; auto|].
  destruct (SInv_move s t Hs) as (s1 & M & I & _). destruct (IH _ I) as (s2 & M2 & I2).
  exists s2. cbn [moves]. rewrite M. auto.
Qed.
Lemma SInv_reach ts s : reach c ts s -> SInv s.
Proof.
  intros (s0 & Hi & Mv). destruct SInv_init as (s1 & Hi1 & I). rewrite Hi in Hi1. injection Hi1 as ->.
  destruct (SInv_moves ts s1 I) as (s2 & M2 & I2). rewrite Mv in M2. injection M2 as ->. auto.
Qed.
End S.

Lemma sqrt_derive (a b t : R) : 1 / 10 ^ 10 < t ->
  is_derive (fun u => a + b * sq_floor u) t (b * (1/2) / sq_floor t).
Proof.
  intro Ht. pose proof eps_pos.
  apply (is_derive_ext_loc (fun u => a + b * sqrt u)).
  - assert (Hd : 0 < t - 1 / 10 ^ 10) by lra.
    exists (mkposreal _ Hd). intros u Hu. change (Rabs (u - t) < t - 1 / 10 ^ 10) in Hu.
    apply Rabs_def2 in Hu. unfold sq_floor. rewrite Rmax_left; auto; lra.
  - unfold sq_floor. rewrite Rmax_left by lra. auto_derive; [lra|]. field.
    apply Rgt_not_eq, sqrt_lt_R0. lra.
Qed.

Lemma sqrt_mesh_lemma c : square_src_slab c -> good_square c -> finite_domain c = true -> move_func c = 2%nat ->
  exists p v : R -> nat -> R,
    (forall ts s t, reach c ts s -> nth (N_space c) (edges s) 0 < domain_width c / 2 - 1/100 ->
       exists s', move c t s = Ok s' /\ length (edges s') = (N_space c + 1)%nat /\
        (forall i, (i <= N_space c)%nat -> nth i (edges s') 0 = p t i /\ nth i (Dedges s') 0 = v t i) /\
        (0 < x0 c -> 0 <= speed c -> 0 <= move_factor c -> increasing (edges s'))) /\
    (forall t i, 1 / 10 ^ 10 < t -> is_derive (fun u => p u i) t (v t i)) /\
    (forall t i, t <= 1 / 10 ^ 10 -> p t i = p (1 / 10 ^ 10) i /\ v t i = v (1 / 10 ^ 10) i) /\
    (speed c * move_factor c <> 0 -> forall t, v t (N_space c) <> 0).
Proof.
  intros Hc (H4 & Hmod & Hq & Hm) Hf Hmf. destruct (mod4_k _ H4 Hmod) as (k & HN & Hk).
  pose (P := sq_pos k (x0 c) (speed c) (thick_quad c) (thick_quad_edge c)).
  pose (V := sq_vel k (speed c) (thick_quad_edge c)).
  exists (fun t i => P 0 i + V i * move_factor c * sq_floor t), (fun t i => V i * move_factor c * (1/2) / sq_floor t).
  rewrite HN. repeat apply conj.
  - intros ts s t Hr Hlt. pose proof (SInv_reach c k HN Hk Hq Hc Hf Hm Hmf ts s Hr) as I.
    destruct (SInv_move c k HN Hk Hc Hf Hmf s t I) as (s' & M & _ & A & _).
    destruct (A Hlt) as [E D]. exists s'. split; auto. rewrite E, D, tab_length. split; auto. split.
    + intros i Hi. rewrite !nth_tab by lia. auto.
    + intros Hx Hv Hmv.
      assert (EE : tab (4 * k + 1) (fun i => sq_pos k (x0 c) (speed c) (thick_quad c) (thick_quad_edge c) 0 i +
          sq_vel k (speed c) (thick_quad_edge c) i * move_factor c * sq_floor t) = tab (4 * k + 1)
          (sq_pos k (x0 c) (speed c) (thick_quad c) (thick_quad_edge c) (move_factor c * sq_floor t))).
      { apply tab_ext. intros i Hi. pose proof (P_lin c k (move_factor c * sq_floor t) i) as PL. cbn in PL. rewrite <- PL. ring. }
      rewrite EE. apply P_incr; auto. pose proof (sq_floor_pos t). unfold dx_slab.
      pose proof (Rmult_le_pos _ _ Hmv (Rlt_le _ _ H)). pose proof (Rmult_le_pos _ _ Hv H0). lra.
  - intros t i Ht. cbv beta. apply (sqrt_derive (P 0 i) (V i * move_factor c) t Ht).
  - intros t i Ht. unfold sq_floor. rewrite (Rmax_right t) by lra. rewrite Rmax_left by lra. auto.
  - intros Hne t. cbv beta. unfold V, sq_vel.
    destruct (Nat.ltb_spec (4 * k) k); [lia|]. destruct (Nat.leb_spec (4 * k) (3 * k)); [lia|].
    replace (4 * k - 3 * k)%nat with k by lia. rewrite (qe_last c k) by auto.
    pose proof (sq_floor_pos t). intro E. apply Hne.
    apply (f_equal (fun z => z * (2 * sq_floor t))) in E. field_simplify in E; lra.
Qed.
