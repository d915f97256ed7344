(** The front-tracking mesh over every history of calls. *)
From Coquelicot Require Import Coquelicot.
From Verif Require Import Py PyLemmas MeshModel MeshSpec MeshProofs MeshSquare MeshOther MeshFinite MeshFinal FrontSpec MeshWave.

Lemma front_k c : follows_front c -> exists k, N_space c = (4 * k)%nat /\ (3 <= k)%nat.
Proof.
  intros (_ & _ & _ & _ & _ & _ & _ & _ & _ & _ & _ & H12 & Hm & _).
  destruct (mod4_k (N_space c) ltac:(lia) Hm) as (k & HN & Hk). exists k. lia.
Qed.

Lemma record_range c t : record_ok c -> in_record c t -> exists w w', linear (wave_t c) (wave_T c) t w /\ linear (wave_t c) (wave_T c) (t + delta) w'.
Proof.
  intros (R1 & R2 & R3) [A B]. assert (0 < delta) by (unfold delta; lra). assert (1 <= length (wave_t c))%nat. { destruct (wave_t c); cbn in *; [lra|lia]. }
  destruct (linear_exists (wave_t c) (wave_T c) t ltac:(lia) ltac:(lra)) as (w & W).
  destruct (linear_exists (wave_t c) (wave_T c) (t + delta) ltac:(lia) ltac:(lra)) as (w' & W').
  eauto.
Qed.

Section Thin.
Variable c : cfg.
Variable k : nat.
Hypothesis Hc : follows_front c.
Hypothesis Ht : thick c = false.
Hypothesis HN : N_space c = (4 * k)%nat.
Hypothesis Hk : (3 <= k)%nat.
Let P := sq_pos k (x0 c) (speed c) (thick_quad c) (thick_quad_edge c) 0.
Let n := (4 * k + 1)%nat.
Let Pi := sq_pos k (x0 c) (speed c) (thick_quad c) (thick_quad_edge c).
Let Vi := sq_vel k (speed c) (thick_quad_edge c).
Definition thin_s0 : state := State (tab (4 * k + 1) (Pi 0)) (tab (4 * k + 1) (Pi 0)) (tab (4 * k + 1) Vi) (tab (4 * k + 1) Vi) None None true.
Lemma thin_init : init c = Ok thin_s0.
Proof.
  destruct Hc as (H6 & Hs & H01 & H02 & H11 & H21 & H31 & H51 & Hf & Hmf & Hm & H12 & Hmod & Hq & Hr).
  unfold thin_s0. apply (square_init_ok c k); auto; [lia| |rewrite H11, H21; reflexivity].
  repeat split; auto.
Qed.
Lemma thin_inv0 : FInv k P thin_s0.
Proof. repeat split. exists P. split; auto. Qed.
Lemma thin_reach ts s : reach c ts s -> FInv k P s.
Proof.
  intros (s0 & Hi & M). rewrite thin_init in Hi. injection Hi as <-.
  destruct Hc as (H6 & Hs & H01 & H02 & H11 & H21 & H31 & H51 & Hf & Hmf & Hm & H12 & Hmod & Hq & Hr).
  apply (front_inv_moves c k HN Hk H01 H02 H11 H21 Hf Hmf P ts thin_s0); auto. apply thin_inv0.
Qed.
Lemma thin_step ts s t w w' : reach c ts s -> running c s ->
  linear (wave_t c) (wave_T c) t w -> linear (wave_t c) (wave_T c) (t + delta) w' ->
  exists s', move c t s = Ok s' /\ edges s' = tab n (fpos c k P t w) /\
     Dedges s' = tab n (fun i => (fpos c k P (t + delta) w' i - fpos c k P t w i) / delta).
Proof.
  intros Hr Hrun W W'. pose proof (thin_reach ts s Hr) as I. unfold running in Hrun. rewrite HN in Hrun.
  destruct Hc as (H6 & Hs & H01 & H02 & H11 & H21 & H31 & H51 & Hf & Hmf & Hm & H12 & Hmod & Hq & (R1 & R2 & R3)).
  apply (interp1d_linear _ _ _ _ R1 R2) in W, W'.
  destruct (front_step c k HN Hk H01 H02 H11 H21 Hf Hmf P s t I w w' W W') as (s' & M & _ & A & _).
  exists s'. split; auto.
Qed.
Hypothesis Hx : 0 < x0 c.
Lemma P_steps : (forall i, (i < 4 * k)%nat -> P i < P (S i)) /\ P (3 * k)%nat = x0 c /\ P k = - x0 c.
Proof.
  destruct Hc as (H6 & Hs & H01 & H02 & H11 & H21 & H31 & H51 & Hf & Hmf & Hm & H12 & Hmod & Hq & Hr).
  split; [|split].
  - intros i Hi. pose proof (P_incr c k HN ltac:(lia) Hq 0 Hx ltac:(unfold dx_slab; lra)) as I.
    specialize (I i (S i)). rewrite tab_length, !nth_tab in I by lia. apply I. lia.
  - etransitivity; [apply (P_mid c k); lia|]. replace (3 * k - k)%nat with (2 * k)%nat by lia. rewrite (q_last c k HN) by (auto; lia). ring.
  - etransitivity; [apply (P_mid c k); lia|]. rewrite Nat.sub_diag, (q_first c Hq). ring.
Qed.
Hypothesis Hpad : 0 < pad c.
Hypothesis Hlead : pad c < leader_pad c.
Lemma thin_incr t w : increasing (tab n (fpos c k P t w)).
Proof.
  destruct P_steps as (A & B & C). unfold fpos. destruct (Reqb t 0 || Rltb w (x0 c)) eqn:E.
  - apply incr_of_steps. rewrite tab_length. intros i Hi. unfold n in *. rewrite !nth_tab by lia. apply A. lia.
  - apply (wv_incr c k HN Hk Hpad Hlead); auto. apply orb_false_iff in E as [_ E].
    destruct (Rltb_spec w (x0 c)); [discriminate|lra].
Qed.
End Thin.

Section Thick.
Variable c : cfg.
Variable k : nat.
Hypothesis Hc : follows_front c.
Hypothesis Ht : thick c = true.
Hypothesis HN : N_space c = (4 * k)%nat.
Hypothesis Hk : (4 <= k)%nat.
Let n := (4 * k + 1)%nat.
Lemma thick_init : exists s0 g, init c = Ok s0 /\ moving s0 = true /\ edges0 s0 = tab n (fun _ => 0) /\ edges s0 = tab n g /\
   g (4 * k)%nat = x0 c + 1 / 1000 /\ (forall i, (k <= i < 3 * k)%nat -> g i = 1/2 * nth (i - k) (thick_quad c) 0).
Proof.
  destruct Hc as (H6 & Hs & H01 & H02 & H11 & H21 & H31 & H51 & Hf & Hmf & Hm & H12 & Hmod & Hq & Hr).
  destruct (div4 k) as (D2 & D4 & D22). pose proof (q_len c k HN ltac:(lia) Hq) as Lq.
  pose (e := fun i : nat => if (i <? k)%nat then - x0 c - 1/1000 + INR i * ((- x0 c - (- x0 c - 1/1000)) / INR (k + 1 - 1))
     else if (i <? 3 * k)%nat then 1/2 * nth (i - k) (thick_quad c) 0 else x0 c + INR (i - 3 * k) * ((x0 c + 1/1000 - x0 c) / INR (k + 1 - 1))).
  assert (E : drop_last (linspace (- x0 c - 1/1000) (- x0 c) (k + 1)) ++ drop_last (map (fun q => 1/2 * q) (thick_quad c)) ++
      linspace (x0 c) (x0 c + 1/1000) (k + 1) = tab n e).
  { assert (TQ : map (fun q => 1/2 * q) (thick_quad c) = tab (2 * k + 1) (fun i => 1/2 * nth i (thick_quad c) 0)).
    { rewrite <- (map_tab (fun q => 1/2 * q) (2 * k + 1) (fun i => nth i (thick_quad c) 0)). f_equal. apply list_is_tab; auto. }
    rewrite TQ, !linspace_tab, !drop_last_tab, !app_tab. replace (k + 1 - 1 + (2 * k + 1 - 1 + (k + 1)))%nat with n by (unfold n; lia).
    apply tab_ext. intros i Hi. unfold n in Hi. unfold e.
    repeat match goal with |- context [(?a <? ?b)%nat] => destruct (Nat.ltb_spec a b); try lia end; auto.
    all: repeat (first [lia|f_equal]). }
  assert (X : thick_square_moving_init c (state0 c) = Ok (set_Dedges (set_edges (state0 c) (tab n e)) nil) \/ exists d, thick_square_moving_init c (state0 c) = Ok (set_Dedges (set_edges (state0 c) (tab n e)) d)).
  { right. unfold thick_square_moving_init. cbv zeta. rewrite HN, D2, D22, E. unfold state0. cbn [Dedges]. rewrite HN, zeros_tab. fold n.
    assert (SI : forall f j v, (j < n)%nat -> setitem (tab n f) j v = Ok (tab n (fun i => if (i =? j)%nat then v else f i))).
    { intros f j v Hj. pose proof (setneg_tab n f (n - j) v ltac:(lia)) as Q. unfold setneg in Q. rewrite tab_length in Q.
      destruct (Nat.ltb_spec n (n - j)); [lia|]. replace (n - (n - j))%nat with j in Q by lia. exact Q. }
    rewrite SI by (unfold n; lia). cbn [bind]. rewrite SI by (unfold n; lia). cbn [bind]. rewrite SI by (unfold n; lia). cbn [bind].
    rewrite getitem_tab by (unfold n; lia). cbn [bind]. rewrite slice_tab, vshift_tab, map_tab.
    assert (e 3%nat + x0 c <> 0).
    { unfold e. destruct (Nat.ltb_spec 3 k); [|lia]. replace (k + 1 - 1)%nat with k by lia.
      assert (P : 3 < INR k). { replace 3 with (INR 3) by (simpl; lra). apply lt_INR. lia. }
      simpl (INR 3). intro Z. apply (f_equal (fun y => y * INR k)) in Z. field_simplify in Z; [|lra]. lra. }
    rewrite vdivs_tab by auto. cbn [bind]. rewrite setslice_tab by (unfold n; lia). cbn [bind].
    rewrite fillslice_tab by (unfold n; lia). rewrite tab_length, slice_tab, rev_tab, map_tab. rewrite setslice_tab by (unfold n; lia). cbn [bind].
    eexists. reflexivity. }
  assert (Y : exists d, thick_square_moving_init c (state0 c) = Ok (set_Dedges (set_edges (state0 c) (tab n e)) d)) by (destruct X; eauto).
  destruct Y as (d & Y).
  exists (set_Dconst (set_Dedges (set_edges (state0 c) (tab n e)) d) d), e. split; [|split; [|split; [|split; [|split]]]].
  - unfold init. destruct (Nat.ltb_spec (length (source_type c)) 6); [lia|].
    unfold init_dispatch. rewrite H01, H02, Ht, H31, H51, H11, H21. cbn [orb bind negb]. rewrite Hmf. cbn [Nat.eqb bind].
    unfold state0 at 1. cbn [moving]. rewrite Hm, Y. cbn [bind]. unfold state0. cbn. rewrite Hm. reflexivity.
  - exact Hm.
  - cbn. rewrite HN. apply zeros_tab.
  - reflexivity.
  - unfold e. destruct (Nat.ltb_spec (4 * k) k); [lia|]. destruct (Nat.ltb_spec (4 * k) (3 * k)); [lia|].
    replace (4 * k - 3 * k)%nat with k by lia. replace (k + 1 - 1)%nat with k by lia. field. apply not_0_INR. lia.
  - intros i Hi. unfold e. destruct (Nat.ltb_spec i k); [lia|]. destruct (Nat.ltb_spec i (3 * k)); [auto|lia].
Qed.
Lemma thick_first s0 g s1 t : moving s0 = true -> edges0 s0 = tab n (fun _ => 0) -> edges s0 = tab n g ->
  g (4 * k)%nat < domain_width c / 2 - 1 / 100 -> (t = 0 \/ exists w, linear (wave_t c) (wave_T c) t w /\ w < x0 c) ->
  move c t s0 = Ok s1 -> FInv k (fun _ => 0) s1 /\ edges s1 = tab n (fun _ => 0).
Proof.
  intros Mv E0 Eg Hg Hz M.
  destruct Hc as (H6 & Hs & H01 & H02 & H11 & H21 & H31 & H51 & Hf & Hmf & Hm & H12 & Hmod & Hq & (R1 & R2 & R3)).
  unfold move in M. rewrite Mv, H01, H02, H11, H21, Hf in M. cbn [orb andb] in M.
  rewrite (stopped_tab c s0 (4 * k) g Eg), stop_test in M. cbn [bind] in M. rewrite Rltb_true in M by auto. cbn [negb] in M. rewrite Hmf in M.
  unfold thick_square_moving_func_2 in M.
  apply bind_ok in M as (e & M1 & M). assert (e = tab n (fun _ => 0)) as ->.
  { unfold thick_wave_edges in M1. apply bind_ok in M1 as (w & W & M1). rewrite E0 in M1.
    destruct Hz as [->|(w' & L & Hw)].
    - rewrite Reqb_refl in M1. cbn [orb] in M1. congruence.
    - apply (interp1d_linear _ _ _ _ R1 R2) in L. rewrite L in W. injection W as <-. rewrite (Rltb_true _ _ Hw), orb_true_r in M1. congruence. }
  apply bind_ok in M as (e' & M2 & M). apply bind_ok in M as (d & M3 & M). apply bind_ok in M as (d' & M4 & M).
  apply bind_ok in M as (a & M5 & M). apply bind_ok in M as (b & M6 & M). injection M as <-.
  split; [|reflexivity]. repeat split; auto. exists (fun _ => 0). auto.
Qed.
End Thick.
