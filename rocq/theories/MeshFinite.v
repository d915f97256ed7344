(** Finite-domain slab square meshes. *)
From Coquelicot Require Import Coquelicot.
From Verif Require Import Py PyLemmas MeshModel MeshSpec MeshProofs MeshSquare.

Lemma stopped_tab c s n g : edges s = tab (n + 1) g ->
  stopped c s = Ok (Rgeb (g n) (domain_width c / 2) || Rleb (Rabs (g n - domain_width c / 2)) (1/100)).
Proof.
  intro H. unfold stopped. rewrite H, getneg_tab by lia. cbn [bind]. replace (n + 1 - 1)%nat with n by lia. reflexivity.
Qed.

Lemma stop_test r w : (Rgeb r w || Rleb (Rabs (r - w)) (1/100)) = negb (Rltb r (w - 1/100)).
Proof.
  unfold Rgeb. destruct (Rleb_spec w r).
  - cbn. rewrite Rltb_false by lra. reflexivity.
  - cbn. destruct (Rltb_spec r (w - 1/100)) as [H1|H1]; destruct (Rleb_spec (Rabs (r - w)) (1/100)) as [H2|H2]; auto.
    + rewrite Rabs_left in H2 by lra. lra.
    + rewrite Rabs_left in H2 by lra. lra.
Qed.

Section Acc.
Variable c : cfg.
Variable k : nat.
Hypothesis HN : N_space c = (4 * k)%nat.
Hypothesis Hk : (1 <= k)%nat.
Hypothesis Hq : mesh_nodes_ok c.
Hypothesis Hc : square_src_slab c.
Hypothesis Hf : finite_domain c = true.
Hypothesis Hm : moving_flag c = true.
Hypothesis Hmf : move_func c = 0%nat.
Hypothesis Ht : t0 c < tfinal c.
Let P := sq_pos k (x0 c) (speed c) (thick_quad c) (thick_quad_edge c).
Let V := sq_vel k (speed c) (thick_quad_edge c).
Let n := (4 * k + 1)%nat.

Definition fin_pos (i : nat) : R := - pad c + INR i * (2 * pad c / INR (4 * k)).
Definition acc (i : nat) : R :=
  2 * (V i * t0 c - V i * tfinal c - P (t0 c) i + fin_pos i) / ((t0 c - tfinal c) * (t0 c - tfinal c)).
Definition acc_pos (t : R) (i : nat) : R := acc i / 2 * (t - t0 c) ^ 2 + V i * (t - t0 c) + P (t0 c) i.
Definition acc_vel (t : R) (i : nat) : R := acc i * (t - t0 c) + V i.

Definition AInv (s : state) : Prop :=
  edges0 s = tab n (P 0) /\ Dedges_const s = tab n V /\ moving s = true /\
  (exists g, edges s = tab n g) /\
  exists d, Dedges s = tab n d /\
   ((c1s s = None /\ edges0_2 s = None /\ d k = 0) \/ (c1s s = Some (tab n acc) /\ edges0_2 s = Some (tab n (P (t0 c))))).

Lemma adv_acc t : advance (tab n (P 0)) (tab n V) t = Ok (tab n (P t)).
Proof. exact (advance_sq c k t). Qed.
Lemma V_k : V k = 0. Proof. apply (V_mid c); auto. lia. Qed.

Lemma middle_ok s : AInv s -> exists s', move_middle_edges c s = Ok s' /\
  s' = set_acc s (tab n acc) (tab n (P (t0 c))).
Proof.
  intros (He & Hd & Hmv & (g & Hg) & d & HD & Hacc). destruct (div4 k) as (D2 & D4 & D22).
  unfold move_middle_edges. cbv zeta. rewrite HN, D2, D22, HD.
  rewrite getitem_tab by (unfold n; lia). cbn [bind].
  destruct (Reqb_spec (d k) 0) as [E|E].
  - rewrite He, Hd. rewrite adv_acc. cbn [bind]. rewrite !vscale_tab. unfold vsub, vadd.
    rewrite vop_tab. cbn [bind]. rewrite vop_tab. cbn [bind].
    rewrite linspace_tab. fold n. rewrite vop_tab. cbn [bind]. rewrite vscale_tab.
    rewrite vdivs_tab. 2:{ apply Rmult_integral_contrapositive; split; lra. }
    cbn [bind]. eexists. split; [reflexivity|]. f_equal. apply tab_ext. intros i Hi.
    unfold acc, fin_pos. replace (n - 1)%nat with (4 * k)%nat by (unfold n; lia).
    assert (INR (4 * k) <> 0) by (apply not_0_INR; lia). field. split; auto. lra.
  - destruct Hacc as [(_ & _ & Hk0)|(H1 & H2)]; [contradiction|].
    exists s. split; auto. destruct s; cbn in *. subst. reflexivity.
Qed.

Lemma late_ok s t : AInv s -> t0 c <= t -> stopped c s = Ok false ->
  exists s', move c t s = Ok s' /\ edges s' = tab n (acc_pos t) /\ Dedges s' = tab n (acc_vel t) /\ AInv s'.
Proof.
  intros HI Hle Hst. pose proof HI as (He & Hd & Hmv & (g & Hg) & d & HD & Hacc).
  destruct (middle_ok s HI) as (s1 & H1 & Es1).
  destruct Hc as ((_ & _ & _ & H01 & H02 & _ & _) & H11 & H21).
  unfold move. rewrite Hmv, H01, H02, H11, H21, Hf, Hst, Hmf. cbn [orb andb bind].
  unfold Rgeb. rewrite Rleb_true by auto. rewrite H1. cbn [bind].
  rewrite Es1. cbn [c1s edges0_2 set_acc assigned bind Dedges_const]. rewrite Hd.
  unfold vadd. rewrite !vscale_tab, !vop_tab. cbn [bind].
  match goal with |- context [vop Rplus (tab n ?a) (tab n ?b)] => idtac | _ => idtac end.
  rewrite ?vop_tab. cbn [bind].
  eexists. split; [reflexivity|]. cbn [edges Dedges set_Dedges set_edges].
  assert (E1 : forall i, acc i * (1 / 2) * (t - t0 c) ^ 2 + V i * (t - t0 c) + P (t0 c) i = acc_pos t i).
  { intro i. unfold acc_pos. field. }
  split; [apply tab_ext; intros; apply E1|]. split; [reflexivity|].
  unfold AInv. cbn [edges edges0 Dedges Dedges_const c1s edges0_2 moving set_acc set_Dedges set_edges].
  repeat split; auto.
  - eexists; reflexivity.
  - eexists. split; [reflexivity|]. right. auto.
Qed.

Lemma early_ok s t d : AInv s -> Dedges s = tab n d -> t < t0 c -> stopped c s = Ok false ->
  exists s', move c t s = Ok s' /\ edges s' = tab n (fun i => P 0 i + d i * t) /\ Dedges s' = tab n d /\ AInv s'.
Proof.
  intros HI HD Hlt Hst. pose proof HI as (He & Hd & Hmv & (g & Hg) & d' & HD' & Hacc).
  destruct Hc as ((_ & _ & _ & H01 & H02 & _ & _) & H11 & H21).
  unfold move. rewrite Hmv, H01, H02, H11, H21, Hf, Hst, Hmf. cbn [orb andb bind].
  unfold Rgeb. rewrite Rleb_false by auto. rewrite He, HD. unfold advance, vadd. rewrite vscale_tab, vop_tab. cbn [bind].
  eexists. split; [reflexivity|]. cbn [edges Dedges set_edges]. split; [reflexivity|]. split; [auto|].
  unfold AInv. cbn [edges edges0 Dedges Dedges_const c1s edges0_2 moving set_edges]. repeat split; auto.
  - eexists; reflexivity.
  - exists d'. auto.
Qed.

Lemma stop_ok s t : AInv s -> stopped c s = Ok true ->
  exists s', move c t s = Ok s' /\ edges s' = edges s /\ Dedges s' = tab n (fun _ => 0) /\ AInv s'.
Proof.
  intros HI Hst. pose proof HI as (He & Hd & Hmv & (g & Hg) & d' & HD' & Hacc).
  destruct Hc as ((_ & _ & _ & H01 & H02 & _ & _) & H11 & H21).
  unfold move. rewrite Hmv, H01, H02, H11, H21, Hf, Hst. cbn [orb andb bind].
  eexists. split; [reflexivity|]. cbn [edges Dedges set_Dedges]. split; [reflexivity|].
  assert (E : vscale (Dedges_const s) 0 = tab n (fun _ => 0)).
  { rewrite Hd, vscale_tab. apply tab_ext. intros. ring. }
  split; [exact E|]. unfold AInv. cbn [edges edges0 Dedges Dedges_const c1s edges0_2 moving set_Dedges].
  repeat split; auto; [eexists; eauto|]. exists (fun _ => 0). split; [exact E|]. 
  destruct Hacc as [(A & B & C)|A]; [left; auto|right; auto].
Qed.

Lemma AInv_init : exists s0, init c = Ok s0 /\ AInv s0 /\ edges s0 = tab n (P 0) /\ Dedges s0 = tab n V.
Proof.
  eexists. split.
  - apply (square_init_ok c k); auto; [apply Hc|]. destruct Hc as (_ & -> & ->). reflexivity.
  - split; [|split; reflexivity]. unfold AInv; cbn [edges edges0 Dedges Dedges_const c1s edges0_2 moving].
    repeat split; auto; [eexists; reflexivity|]. exists V. split; [reflexivity|]. left. repeat split. apply V_k.
Qed.

Lemma AInv_move s t : AInv s -> exists s', move c t s = Ok s' /\ AInv s'.
Proof.
  intro HI. pose proof HI as (He & Hd & Hmv & (g & Hg) & d & HD & Hacc).
  pose proof (stopped_tab c s (4 * k) g Hg) as Hst.
  destruct (_ || _).
  - destruct (stop_ok s t HI Hst) as (s' & ? & _ & _ & ?). eauto.
  - destruct (Rlt_le_dec t (t0 c)).
    + destruct (early_ok s t d HI HD) as (s' & ? & _ & _ & ?); eauto.
    + destruct (late_ok s t HI) as (s' & ? & _ & _ & ?); eauto.
Qed.

Lemma AInv_moves ts s : AInv s -> exists s', moves c ts s = Ok s' /\ AInv s'.
Proof.
  revert s. induction ts as [|t ts IH]; intros s HI; cbn [moves]; [eauto|].
  destruct (AInv_move s t HI) as (s' & -> & HI'). cbn [bind]. auto.
Qed.

Lemma reach_AInv ts s : reach c ts s -> AInv s.
Proof.
  intros (s0 & H0 & H1). destruct AInv_init as (s0' & H0' & HI & _). rewrite H0 in H0'. injection H0' as ->.
  destruct (AInv_moves ts _ HI) as (s' & H1' & HI'). congruence.
Qed.

Lemma acc_pos_start i : acc_pos (t0 c) i = P (t0 c) i.
Proof. unfold acc_pos. ring. Qed.
Lemma acc_vel_start i : acc_vel (t0 c) i = V i.
Proof. unfold acc_vel. ring. Qed.
Lemma acc_pos_final i : acc_pos (tfinal c) i = fin_pos i.
Proof. unfold acc_pos, acc. field. lra. Qed.
Lemma acc_deriv t i : is_derive (fun u => acc_pos u i) t (acc_vel t i).
Proof. unfold acc_pos, acc_vel. auto_derive; auto. field. Qed.

(** A full schedule without stop: every call lands on the closed form of its phase. *)
Lemma late_reach ts s t :
  reach c ts s -> nth (4 * k) (edges s) 0 < domain_width c / 2 - 1/100 -> t0 c <= t ->
  exists s', move c t s = Ok s' /\ edges s' = tab n (acc_pos t) /\ Dedges s' = tab n (acc_vel t).
Proof.
  intros Hr Hu Hle. apply reach_AInv in Hr. pose proof Hr as (_ & _ & _ & (g & Hg) & _).
  destruct (late_ok s t Hr Hle) as (s' & H1 & H2 & H3 & _); [|eauto].
  rewrite (stopped_tab c s (4 * k) g Hg), stop_test. rewrite Hg, nth_tab in Hu by (unfold n; lia).
  rewrite Rltb_true by auto. reflexivity.
Qed.
Lemma early_reach_first t : t < t0 c -> x0 c + dx_slab < domain_width c / 2 - 1/100 ->
  exists s', reach c [t] s' /\ edges s' = tab n (P t).
Proof.
  intros Hlt Hw. destruct AInv_init as (s0 & H0 & HI & He & HD).
  assert (Hst : stopped c s0 = Ok false).
  { rewrite (stopped_tab c s0 (4 * k) _ He), stop_test. rewrite Rltb_true; auto.
    unfold P. rewrite P_last by auto. lra. }
  destruct (early_ok s0 t V HI HD Hlt Hst) as (s' & H1 & H2 & _).
  exists s'. split.
  - exists s0. split; auto. cbn. rewrite H1. reflexivity.
  - rewrite H2. apply tab_ext. intros. apply P_lin.
Qed.
(** Going past t0 and back. *)
Lemma late_then_early t1 t2 :
  t0 c <= t1 -> t2 < t0 c -> x0 c + dx_slab < domain_width c / 2 - 1/100 ->
  acc_pos t1 (4 * k) < domain_width c / 2 - 1/100 ->
  exists s', reach c [t1; t2] s' /\ edges s' = tab n (fun i => P 0 i + acc_vel t1 i * t2).
Proof.
  intros H1 H2 Hw Hw1. destruct AInv_init as (s0 & H0 & HI & He & HD).
  assert (Hst : stopped c s0 = Ok false).
  { rewrite (stopped_tab c s0 (4 * k) _ He), stop_test. rewrite Rltb_true; auto.
    unfold P. rewrite P_last by auto. lra. }
  destruct (late_ok s0 t1 HI H1 Hst) as (s1 & M1 & E1 & D1 & I1).
  assert (Hst1 : stopped c s1 = Ok false).
  { rewrite (stopped_tab c s1 (4 * k) _ E1), stop_test. rewrite Rltb_true; auto. }
  destruct (early_ok s1 t2 _ I1 D1 H2 Hst1) as (s2 & M2 & E2 & _).
  exists s2. split; auto. exists s0. split; auto. cbn [moves]. rewrite M1. cbn [bind]. rewrite M2. reflexivity.
Qed.
End Acc.

(* ------------------------------------------------------------------ square initial condition, finite domain *)
Section FinIC.
Variable c : cfg.
Hypothesis Hc : square_ic_slab c.
Hypothesis Hf : finite_domain c = true.

Lemma fin_frozen ts s : moving s = true ->
  stopped c s = Ok true -> (forall t, In t ts -> t <> tfinal c) ->
  exists s', moves c ts s = Ok s' /\ edges s' = edges s /\ moving s' = true /\ Dedges_const s' = Dedges_const s /\
    (ts <> [] -> Dedges s' = vscale (Dedges_const s) 0).
Proof.
  revert s. induction ts as [|t ts IH]; intros s Hm Hst Hts.
  - exists s. cbn. repeat split; auto. congruence.
  - destruct Hc as ((_ & _ & _ & H01 & H02 & _ & _) & H11). cbn [moves].
    unfold move at 1. rewrite Hm, H01, H02, H11, Hf. cbn [orb andb].
    rewrite Reqb_false by (apply Hts; now left). rewrite Hst. cbn [bind].
    destruct (IH (set_Dedges s (vscale (Dedges_const s) 0))) as (s' & M & E & Mv & DC & D); auto.
    { intros; apply Hts; now right. }
    exists s'. rewrite M. repeat split; auto. intros _.
    destruct ts; [cbn in M; injection M as <-; reflexivity|]. apply D. discriminate.
Qed.

Lemma fin_jump s : moving s = true ->
  move c (tfinal c) s = Ok (set_edges s (linspace (- domain_width c / 2) (domain_width c / 2) (N_space c + 1))).
Proof.
  intro Hm. destruct Hc as ((_ & _ & _ & H01 & H02 & _ & _) & H11).
  unfold move. rewrite Hm, H01, H02, H11, Hf, Reqb_refl. reflexivity.
Qed.

Variable k : nat.
Hypothesis HN : N_space c = (4 * k)%nat.
Hypothesis Hk : (1 <= k)%nat.
Hypothesis Hq : mesh_nodes_ok c.
Hypothesis Hmv : moving_flag c = true.
Let P := sq_pos k (x0 c) (speed c) (thick_quad c) (thick_quad_edge c).
Let V := sq_vel k (speed c) (thick_quad_edge c).
Let n := (4 * k + 1)%nat.

Lemma adv_fin t : advance (tab n (P 0)) (tab n V) t = Ok (tab n (P t)).
Proof. exact (advance_sq c k t). Qed.
Lemma fin_move_free s t g : moving s = true -> edges0 s = tab n (P 0) -> Dedges_const s = tab n V ->
  edges s = tab n g -> g (4 * k)%nat < domain_width c / 2 - 1/100 -> t <> tfinal c ->
  move c t s = Ok (set_Dedges (set_edges s (tab n (P t))) (tab n V)).
Proof.
  intros Hm H0 HD Hg Hlt Hne. destruct Hc as ((_ & _ & _ & H01 & H02 & _ & _) & H11).
  unfold move. rewrite Hm, H01, H02, H11, Hf. cbn [orb andb]. rewrite Reqb_false by auto.
  rewrite (stopped_tab c s (4 * k) g Hg), stop_test. rewrite Rltb_true by auto. cbn [negb bind].
  rewrite H0, HD, adv_fin. reflexivity.
Qed.

Lemma fin_init : init c = Ok (State (tab n (P 0)) (tab n (P 0)) (tab n V) (tab n V) None None true).
Proof.
  apply (square_init_ok c k); auto; [apply Hc|]. destruct Hc as [_ ->]. reflexivity.
Qed.

(** Two schedules ending at the same time, one stopped on the way. *)
Lemma fin_schedules t1 t2 :
  t1 <> tfinal c -> t2 <> tfinal c -> x0 c + dx_slab < domain_width c / 2 - 1/100 ->
  domain_width c / 2 - 1/100 <= x0 c + dx_slab + speed c * t1 ->
  (exists s, reach c [t1; t2] s /\ edges s = tab n (P t1)) /\ (exists s, reach c [t2] s /\ edges s = tab n (P t2)).
Proof.
  intros N1 N2 Hw Hs.
  assert (PL : forall t, P t (4 * k)%nat = x0 c + dx_slab + speed c * t) by (intro; apply P_last; auto).
  assert (M : forall t, t <> tfinal c -> move c t (State (tab n (P 0)) (tab n (P 0)) (tab n V) (tab n V) None None true)
      = Ok (set_Dedges (set_edges (State (tab n (P 0)) (tab n (P 0)) (tab n V) (tab n V) None None true) (tab n (P t))) (tab n V))).
  { intros t Hne. apply (fin_move_free _ _ (P 0)); auto. rewrite PL. lra. }
  split.
  - destruct (fin_frozen [t2] (set_Dedges (set_edges (State (tab n (P 0)) (tab n (P 0)) (tab n V) (tab n V) None None true) (tab n (P t1))) (tab n V)))
      as (s' & Mv & E & _); auto.
    + rewrite (stopped_tab c _ (4 * k) (P t1)), stop_test by reflexivity. rewrite PL, Rltb_false by lra. reflexivity.
    + cbn. intros t [<-|[]]. auto.
    + exists s'. split; [|exact E]. eexists. split; [apply fin_init|]. cbn [moves]. rewrite M by auto. cbn [bind]. exact Mv.
  - eexists. split; [eexists; split; [apply fin_init|]; cbn [moves]; rewrite M by auto; reflexivity|]. reflexivity.
Qed.
End FinIC.
