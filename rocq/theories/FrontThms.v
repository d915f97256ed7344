(** Theorems about the mesh that follows a recorded front (mesh.py 304-341, mesh_functions.py 92-114). *)
From Coquelicot Require Import Coquelicot.
From Verif Require Import Py PyLemmas MeshModel MeshSpec MeshProofs MeshSquare MeshOther MeshFinite MeshFinal FrontSpec MeshWave FrontProofs.

(** a front travelling at speed one, 16 cells, source half-width 1/2 *)
Definition front_cfg (th : bool) : cfg :=
  Cfg 16 (1/2) 2 true [false; true; false; false] [0;0;1;0;0;0]%Z 1 th 1 [0; 1; 2] [] [0; 1; 2] (1/10) (2/10)
      (linspace (-1) 1 9) (linspace (-1) 1 5) true 100 0 1 true false.
Lemma front_record : increasing [0; 1; 2].
Proof. intros i j Hij. cbn in Hij. destruct i as [|[|[|i]]]; destruct j as [|[|[|j]]]; try lia; cbn; lra. Qed.
Lemma front_cfg_ok th : follows_front (front_cfg th).
Proof.
  assert (G : good_square (wcfg 16 (1/2) 2 true [0;0;1;0;0;0]%Z true true 100 0)) by (apply wgood_square; [repeat constructor|reflexivity]).
  destruct G as (_ & _ & Hq & _).
  unfold follows_front. do 13 (split; [first [reflexivity|cbn; lia]|]). split; [exact Hq|]. split; [|split; [reflexivity|cbn; lra]].
  exact front_record.
Qed.
Lemma front_cfg_init : exists s0, init (front_cfg false) = Ok s0 /\ nth 13 (edges s0) 0 <= 3/4 /\ nth 14 (edges s0) 0 <= 3/4 /\ nth 15 (edges s0) 0 <= 3/4 /\ nth 16 (edges s0) 0 <= 3/4.
Proof.
  pose proof (thin_init (front_cfg false) 4 (front_cfg_ok false) eq_refl eq_refl ltac:(lia)) as I. eexists. split; [exact I|].
  unfold thin_s0. cbn [edges]. rewrite !nth_tab by lia. unfold sq_pos, front_cfg, dx_slab. cbn [Nat.ltb Nat.leb Nat.mul Nat.add Nat.sub x0 thick_quad_edge speed].
  rewrite !linspace_tab, !nth_tab by lia. cbn. lra.
Qed.

(** ** C105: where the edges are *)
(** Thin initialisation, any history of calls.  While the stop test has not fired, a call at a time the
    record covers succeeds and puts the edges where the front says. *)
Theorem C105_front_mesh c : follows_front c -> thick c = false -> 0 < x0 c -> 0 < pad c -> pad c < leader_pad c ->
  forall s0, init c = Ok s0 ->
  forall ts s t, reach c ts s -> running c s -> in_record c t ->
  exists w s', linear (wave_t c) (wave_T c) t w /\ move c t s = Ok s' /\
   let N := N_space c in let e i := nth i (edges s') 0 in let z i := nth i (edges s0) 0 in
   length (edges s') = (N + 1)%nat /\ increasing (edges s') /\
   (t = 0 \/ w < x0 c -> forall i, (i <= N)%nat -> e i = z i) /\
   (t <> 0 -> x0 c <= w ->
      e N = Rmax (w + leader_pad c) (z N) /\ e (N - 1)%nat = Rmax (w + pad c) (z (N - 1)%nat) /\
      e (N - 2)%nat = Rmax w (z (N - 2)%nat) /\ e (N - 3)%nat = Rmax (w - pad c) (z (N - 3)%nat) /\
      (forall i, (3 * (N / 4) <= i < N - 3)%nat ->
         e i = x0 c + INR (i - 3 * (N / 4)) / INR (N / 4 - 3) * (e (N - 3)%nat - x0 c)) /\
      (forall i, (N / 4 <= i < 3 * (N / 4))%nat -> e i = z i) /\
      (forall i, (i < N / 4)%nat -> e i = - e (N - i)%nat)).
Proof.
  intros Hc Ht Hx Hp Hl s0 Hi ts s t Hr Hrun Hin. destruct (front_k c Hc) as (k & HN & Hk).
  pose proof Hc as (_ & _ & _ & _ & _ & _ & _ & _ & _ & _ & _ & _ & _ & _ & (R1 & R2 & R3)).
  destruct (record_range c t (conj R1 (conj R2 R3)) Hin) as (w & w' & W & W').
  destruct (thin_step c k Hc Ht HN Hk ts s t w w' Hr Hrun W W') as (s' & M & E & D).
  exists w, s'. split; [auto|]. split; [auto|]. cbv zeta. rewrite E.
  rewrite (thin_init c k Hc Ht HN Hk) in Hi. injection Hi as <-. cbn [edges thin_s0].
  destruct (div4 k) as (D2 & D4 & D22). rewrite HN, D4, tab_length.
  split; [reflexivity|]. split; [apply (thin_incr c k Hc HN Hk Hx Hp Hl)|].
  split; [|].
  - intros Hz i Hi. rewrite !nth_tab by lia. unfold fpos.
    destruct Hz as [->|Hw]; [rewrite Reqb_refl|rewrite (Rltb_true _ _ Hw), orb_true_r]; reflexivity.
  - intros Hz Hw.
    assert (F : forall i, (i <= 4 * k)%nat -> nth i (tab (4 * k + 1) (fpos c k (sq_pos k (x0 c) (speed c) (thick_quad c) (thick_quad_edge c) 0) t w)) 0 =
       wv c k (sq_pos k (x0 c) (speed c) (thick_quad c) (thick_quad_edge c) 0) (sq_pos k (x0 c) (speed c) (thick_quad c) (thick_quad_edge c) 0) w i).
    { intros i Hi. rewrite nth_tab by lia. unfold fpos. rewrite (Reqb_false _ _ Hz), Rltb_false by lra. reflexivity. }
    set (z := sq_pos k (x0 c) (speed c) (thick_quad c) (thick_quad_edge c) 0) in *.
    rewrite !F by lia. rewrite !nth_tab by lia.
    split; [|split; [|split; [|split; [|split; [|split]]]]].
    1-4: unfold wv, wr; repeat match goal with |- context [(?a <? ?b)%nat] => destruct (Nat.ltb_spec a b); try lia end;
      repeat match goal with |- context [(?a =? ?b)%nat] => destruct (Nat.eqb_spec a b); try lia end; reflexivity.
    + intros i Hi. rewrite F by lia. unfold wv, wr.
      repeat match goal with |- context [(?a <? ?b)%nat] => destruct (Nat.ltb_spec a b); try lia end.
      rewrite Nat.eqb_refl. field. apply not_0_INR. lia.
    + intros i Hi. rewrite F, nth_tab by lia. unfold wv, wr.
      destruct (Nat.ltb_spec i k); [lia|]. destruct (Nat.ltb_spec i (3 * k)); [reflexivity|lia].
    + intros i Hi. rewrite !F by lia. unfold wv. destruct (Nat.ltb_spec i k); [|lia]. destruct (Nat.ltb_spec (4 * k - i) k); [lia|reflexivity].
Qed.
Print Assumptions C105_front_mesh.
Example C105_front_example : exists s0 s', init (front_cfg false) = Ok s0 /\ move (front_cfg false) 1 s0 = Ok s' /\
  nth 16 (edges s') 0 = 12/10 /\ nth 15 (edges s') 0 = 11/10 /\ nth 14 (edges s') 0 = 1 /\ nth 13 (edges s') 0 = 9/10 /\
  nth 12 (edges s') 0 = 1/2 /\ nth 0 (edges s') 0 = - (12/10).
Proof.
  destruct front_cfg_init as (s0 & I0 & A & B & C & D).
  destruct (C105_front_mesh (front_cfg false) (front_cfg_ok false) eq_refl ltac:(cbn; lra) ltac:(cbn; lra) ltac:(cbn; lra) s0 I0 [] s0 1) as (w & s' & W & M & L & _ & _ & E).
  - exists s0. split; auto.
  - unfold running. cbn [N_space front_cfg domain_width]. lra.
  - unfold in_record, delta. cbn. lra.
  - exists s0, s'. split; auto. split; auto.
    assert (w = 1).
    { apply (linear_fun [0;1;2] [0;1;2] 1); auto; [exact front_record|].
      exists 1%nat. cbn. split; [lia|]. split; [lra|]. field. }
    subst w. destruct (E ltac:(lra) ltac:(cbn; lra)) as (E1 & E2 & E3 & E4 & E5 & _ & E7). cbn [N_space front_cfg leader_pad pad x0] in *.
    cbn [Nat.sub] in *. rewrite Rmax_left in E1, E2, E3, E4 by lra. repeat split; try lra.
    + rewrite (E5 12%nat) by (cbn; lia). cbn. lra.
    + rewrite (E7 0%nat) by (cbn; lia). cbn [Nat.sub]. rewrite E1. lra.
Qed.

(** The velocities handed to the scheme are the forward differences, over 1e-7, of the positions which a
    call at the later time computes — from any state of any history. *)
Theorem C105_velocity c : follows_front c -> thick c = false ->
  forall ts s t s' ts2 s2 s2', reach c ts s -> running c s -> in_record c t -> move c t s = Ok s' ->
  reach c ts2 s2 -> running c s2 -> in_record c (t + delta) -> move c (t + delta) s2 = Ok s2' ->
  forall i, (i <= N_space c)%nat -> nth i (Dedges s') 0 = (nth i (edges s2') 0 - nth i (edges s') 0) / delta.
Proof.
  intros Hc Ht ts s t s' ts2 s2 s2' Hr Hrun Hin M Hr2 Hrun2 Hin2 M2 i Hi. destruct (front_k c Hc) as (k & HN & Hk).
  pose proof Hc as (_ & _ & _ & _ & _ & _ & _ & _ & _ & _ & _ & _ & _ & _ & (R1 & R2 & R3)).
  destruct (record_range c t (conj R1 (conj R2 R3)) Hin) as (w & w' & W & W').
  destruct (record_range c (t + delta) (conj R1 (conj R2 R3)) Hin2) as (v & v' & V & V').
  destruct (thin_step c k Hc Ht HN Hk ts s t w w' Hr Hrun W W') as (q & Mq & E & D).
  destruct (thin_step c k Hc Ht HN Hk ts2 s2 (t + delta) v v' Hr2 Hrun2 V V') as (q2 & Mq2 & E2 & D2).
  rewrite M in Mq. injection Mq as <-. rewrite M2 in Mq2. injection Mq2 as <-.
  rewrite D, E, E2, !nth_tab by lia. rewrite (linear_fun _ _ _ v w' R1 R2 V W'). reflexivity.
Qed.
Print Assumptions C105_velocity.

(** Every history of calls at covered times goes through. *)
Theorem C105_histories c : follows_front c -> thick c = false -> forall ts, Forall (in_record c) ts -> exists s, reach c ts s.
Proof.
  intros Hc Ht ts Hts. destruct (front_k c Hc) as (k & HN & Hk).
  pose proof Hc as (H6 & Hs & H01 & H02 & H11 & H21 & H31 & H51 & Hf & Hmf & Hm & H12 & Hmod & Hq & (R1 & R2 & R3)).
  destruct (front_moves_ok c k HN Hk H01 H02 H11 H21 Hf Hmf _ R1 R2 R3 ts Hts (thin_s0 c k) (thin_inv0 c k)) as (s & M).
  exists s, (thin_s0 c k). split; auto. apply (thin_init c k); auto.
Qed.
Print Assumptions C105_histories.
Example C105_history_example : exists s, reach (front_cfg false) [0; 1/2; 3/2; 1] s.
Proof.
  apply C105_histories; [apply front_cfg_ok|reflexivity|]. repeat constructor; unfold in_record, delta; cbn; lra.
Qed.

(** ** C106: the outer edge jumps when the front leaves the source region *)
Theorem C106_jump c : follows_front c -> thick c = false -> 0 < x0 c -> 0 < pad c -> pad c < leader_pad c ->
  forall ts s t s' w ts2 s2 t2 s2' w2, reach c ts s -> running c s -> in_record c t -> move c t s = Ok s' -> linear (wave_t c) (wave_T c) t w -> w < x0 c ->
  reach c ts2 s2 -> running c s2 -> in_record c t2 -> t2 <> 0 -> move c t2 s2 = Ok s2' -> linear (wave_t c) (wave_T c) t2 w2 -> x0 c <= w2 ->
  nth (N_space c) (edges s') 0 = x0 c + dx_slab /\
  nth (N_space c) (edges s2') 0 >= x0 c + leader_pad c.
Proof.
  intros Hc Ht Hx Hp Hl ts s t s' w ts2 s2 t2 s2' w2 Hr Hrun Hin M L Hw Hr2 Hrun2 Hin2 Hne M2 L2 Hw2.
  destruct (front_k c Hc) as (k & HN & Hk).
  pose proof Hc as (H6 & Hs & H01 & H02 & H11 & H21 & H31 & H51 & Hf & Hmf & Hm & H12 & Hmod & Hq & (R1 & R2 & R3)).
  pose proof (thin_init c k Hc Ht HN Hk) as I0.
  destruct (C105_front_mesh c Hc Ht Hx Hp Hl _ I0 ts s t Hr Hrun Hin) as (v & q & V & Mq & _ & _ & A & _).
  destruct (C105_front_mesh c Hc Ht Hx Hp Hl _ I0 ts2 s2 t2 Hr2 Hrun2 Hin2) as (v2 & q2 & V2 & Mq2 & _ & _ & _ & B).
  rewrite M in Mq. injection Mq as <-. rewrite M2 in Mq2. injection Mq2 as <-.
  rewrite (linear_fun _ _ _ v w R1 R2 V L) in *. rewrite (linear_fun _ _ _ v2 w2 R1 R2 V2 L2) in *.
  split.
  - rewrite (A (or_intror Hw) (N_space c) ltac:(lia)). unfold thin_s0. cbn [edges]. rewrite HN, nth_tab by lia.
    unfold sq_pos. destruct (Nat.ltb_spec (4 * k) k); [lia|]. destruct (Nat.leb_spec (4 * k) (3 * k)); [lia|].
    replace (4 * k - 3 * k)%nat with k by lia. rewrite (qe_last c k) by (auto; lia). field.
  - destruct (B Hne Hw2) as (-> & _). apply Rle_ge. eapply Rle_trans; [|apply Rmax_l]. lra.
Qed.
Print Assumptions C106_jump.
(** the front enters at time 1/2; the outer edge goes from 0.51 or less to 0.7 or more *)
Example C106_jump_example : dx_slab < leader_pad (front_cfg false) /\
  (forall t, 0 <= t < 1/2 -> exists w, linear [0; 1; 2] [0; 1; 2] t w /\ w < x0 (front_cfg false)) /\
  exists w, linear [0; 1; 2] [0; 1; 2] (1/2) w /\ x0 (front_cfg false) <= w.
Proof.
  split; [unfold dx_slab; cbn; lra|]. split.
  - intros t Ht. exists t. split; [|cbn; lra]. exists 0%nat. cbn. split; [lia|]. split; [lra|]. field.
  - exists (1/2). split; [|cbn; lra]. exists 0%nat. cbn. split; [lia|]. split; [lra|]. field.
Qed.

(** ** C107: with the thick initialisation the mesh collapses *)
Theorem C107_thick_collapses c : follows_front c -> thick c = true -> (16 <= N_space c)%nat -> x0 c + 1/1000 < domain_width c / 2 - 1/100 ->
  forall ts, Forall (in_record c) (0 :: ts) ->
  exists s, reach c (0 :: ts) s /\ length (edges s) = (N_space c + 1)%nat /\
    forall i, (N_space c / 4 <= i < 3 * (N_space c / 4))%nat -> nth i (edges s) 0 = 0.
Proof.
  intros Hc Ht H16 Hd ts Hts. destruct (front_k c Hc) as (k & HN & Hk).
  pose proof Hc as (H6 & Hs & H01 & H02 & H11 & H21 & H31 & H51 & Hf & Hmf & Hm & H12 & Hmod & Hq & (R1 & R2 & R3)).
  destruct (thick_init c k Hc Ht HN ltac:(lia)) as (s0 & g & I0 & Mv & E0 & Eg & G1 & G2).
  inversion Hts as [|? ? T0 Tts]; subst.
  destruct (record_range c 0 (conj R1 (conj R2 R3)) T0) as (w & w' & W & W').
  assert (X : exists s1, move c 0 s0 = Ok s1).
  { unfold move. rewrite Mv, H01, H02, H11, H21, Hf. cbn [orb andb].
    rewrite (stopped_tab c s0 (4 * k) g Eg), stop_test. cbn [bind]. rewrite Rltb_true by lra. cbn [negb]. rewrite Hmf.
    unfold thick_square_moving_func_2. 
    rewrite (wave_edges_ok c k HN Hk s0 0 g (fun _ => 0) w Eg E0 (interp1d_linear _ _ _ _ R1 R2 W)). rewrite Reqb_refl. cbn [orb bind].
    rewrite (wave_edges_ok c k HN Hk (set_edges s0 (tab (4 * k + 1) (fun _ => 0))) (0 + 1 / 10000000) (fun _ => 0) (fun _ => 0) w' eq_refl E0 (interp1d_linear _ _ _ _ R1 R2 W')).
    cbn [bind]. destruct (_ || _); unfold vsub; rewrite vop_tab; cbn [bind]; rewrite vdivs_tab by lra; cbn [bind]; rewrite !getneg_tab by lia; cbn [bind]; eauto. }
  destruct X as (s1 & M1).
  destruct (thick_first c k Hc s0 g s1 0 Mv E0 Eg ltac:(lra) (or_introl eq_refl) M1) as (I1 & _).
  destruct (front_moves_ok c k HN Hk H01 H02 H11 H21 Hf Hmf _ R1 R2 R3 ts Tts s1 I1) as (s & M).
  pose proof (front_inv_moves c k HN Hk H01 H02 H11 H21 Hf Hmf _ ts s1 s I1 M) as (_ & _ & h & Eh & Hh).
  exists s. split.
  - exists s0. split; auto. cbn [moves]. rewrite M1. exact M.
  - destruct (div4 k) as (D2 & D4 & D22). rewrite Eh, HN, D4, tab_length. split; auto. intros i Hi. rewrite nth_tab by lia. auto.
Qed.
Print Assumptions C107_thick_collapses.
Example C107_example : exists s, reach (front_cfg true) [0; 1; 3/2] s /\ nth 4 (edges s) 0 = 0 /\ nth 8 (edges s) 0 = 0 /\ nth 11 (edges s) 0 = 0.
Proof.
  destruct (C107_thick_collapses (front_cfg true) (front_cfg_ok true) eq_refl ltac:(cbn; lia) ltac:(cbn; lra) [1; 3/2]) as (s & Hr & _ & Z).
  - repeat constructor; unfold in_record, delta; cbn; lra.
  - exists s. split; auto. split; [|split]; apply Z; cbn; lia.
Qed.

(** right after the first call, at time 0, every edge is 0 *)
Theorem C107_all_zero c : follows_front c -> thick c = true -> (16 <= N_space c)%nat -> x0 c + 1/1000 < domain_width c / 2 - 1/100 ->
  forall s, reach c [0] s -> length (edges s) = (N_space c + 1)%nat /\ forall i, (i <= N_space c)%nat -> nth i (edges s) 0 = 0.
Proof.
  intros Hc Ht H16 Hd s (s0 & Hi & M). destruct (front_k c Hc) as (k & HN & Hk).
  destruct (thick_init c k Hc Ht HN ltac:(lia)) as (s0' & g & I0 & Mv & E0 & Eg & G1 & G2).
  rewrite Hi in I0. injection I0 as <-. cbn [moves] in M. apply bind_ok in M as (s1 & M1 & M2). injection M2 as <-.
  destruct (thick_first c k Hc s0 g s1 0 Mv E0 Eg ltac:(lra) (or_introl eq_refl) M1) as (_ & E).
  rewrite E, tab_length, HN. split; auto. intros i Hi'. rewrite nth_tab by lia. reflexivity.
Qed.
Print Assumptions C107_all_zero.

(** so the thick front-tracking mesh never has increasing edges once the solver has asked for time 0 *)
Theorem C107_never_increasing c : follows_front c -> thick c = true -> (16 <= N_space c)%nat -> x0 c + 1/1000 < domain_width c / 2 - 1/100 ->
  forall ts s, Forall (in_record c) (0 :: ts) -> reach c (0 :: ts) s -> ~ increasing (edges s).
Proof.
  intros Hc Ht H16 Hd ts s Hts Hr Hi. destruct (C107_thick_collapses c Hc Ht H16 Hd ts Hts) as (s' & Hr' & L & Z).
  assert (s' = s) as ->. { destruct Hr as (a & A & B), Hr' as (a' & A' & B'). congruence. }
  destruct (front_k c Hc) as (k & HN & Hk). destruct (div4 k) as (D2 & D4 & D22). rewrite HN, D4 in *.
  specialize (Hi k (S k) ltac:(lia)). rewrite !Z in Hi by lia. lra.
Qed.
Print Assumptions C107_never_increasing.

(** the initial interior edges take half-width 1/2, whatever the source half-width x0 *)
Theorem C107_initial_middle c : follows_front c -> thick c = true -> (16 <= N_space c)%nat ->
  exists s0, init c = Ok s0 /\ forall i, (N_space c / 4 <= i < 3 * (N_space c / 4))%nat ->
    nth i (edges s0) 0 = 1/2 * nth (i - N_space c / 4) (thick_quad c) 0.
Proof.
  intros Hc Ht H16. destruct (front_k c Hc) as (k & HN & Hk).
  destruct (thick_init c k Hc Ht HN ltac:(lia)) as (s0 & g & I0 & Mv & E0 & Eg & G1 & G2).
  exists s0. split; auto. destruct (div4 k) as (D2 & D4 & D22). rewrite HN, D4, Eg. intros i Hi. rewrite nth_tab by lia. auto.
Qed.
Print Assumptions C107_initial_middle.

(** ** C108: the front position *)
Theorem C108_interpolation xs ys t v : increasing xs -> length ys = length xs -> linear xs ys t v -> interp1d t xs ys = Ok v.
Proof. apply interp1d_linear. Qed.
Print Assumptions C108_interpolation.

Theorem C108_covered xs ys t : increasing xs -> length ys = length xs -> (1 <= length xs)%nat -> nth 0 xs 0 <= t < nth (length xs - 1) xs 0 ->
  exists v, linear xs ys t v /\ (forall v', linear xs ys t v' -> v' = v).
Proof.
  intros Hi Hl H1 Ht. destruct (linear_exists xs ys t H1 Ht) as (v & L). exists v. split; auto. intros v' L'. apply (linear_fun xs ys t); auto.
Qed.
Print Assumptions C108_covered.

(** At the last recorded time and later the loop leaves the array (an IndexError; compiled without bounds
    check, a read past its end). *)
Theorem C108_past_the_end xs ys t : (1 <= length xs)%nat -> increasing xs -> nth (length xs - 1) xs 0 <= t -> interp1d t xs ys = Err IndexError.
Proof. apply interp1d_end. Qed.
Print Assumptions C108_past_the_end.

Theorem C108_run_past_the_end c : follows_front c -> thick c = false ->
  forall ts s t, reach c ts s -> running c s -> nth (length (wave_t c) - 1) (wave_t c) 0 <= t -> move c t s = Err IndexError.
Proof.
  intros Hc Ht ts s t Hr Hrun Hend. destruct (front_k c Hc) as (k & HN & Hk).
  pose proof (thin_reach c k Hc Ht HN Hk ts s Hr) as (Mv & E0 & g & Eg & Hg).
  pose proof Hc as (H6 & Hs & H01 & H02 & H11 & H21 & H31 & H51 & Hf & Hmf & Hm & H12 & Hmod & Hq & (R1 & R2 & R3)).
  unfold running in Hrun. rewrite HN, Eg, nth_tab in Hrun by lia.
  unfold move. rewrite Mv, H01, H02, H11, H21, Hf. cbn [orb andb].
  rewrite (stopped_tab c s (4 * k) g Eg), stop_test. cbn [bind]. rewrite Rltb_true by lra. cbn [negb]. rewrite Hmf.
  unfold thick_square_moving_func_2, thick_wave_edges.
  destruct (Nat.eq_dec (length (wave_t c)) 0) as [Z|Z].
  - unfold interp1d. destruct (wave_t c); [reflexivity|discriminate].
  - rewrite interp1d_end; auto. lia.
Qed.
Print Assumptions C108_run_past_the_end.
Example C108_example : interp1d (3/2) [0; 1; 2] [0; 1; 4] = Ok (5/2) /\ interp1d 2 [0; 1; 2] [0; 1; 4] = Err IndexError.
Proof.
  pose proof front_record as I.
  split.
  - apply C108_interpolation; auto. exists 1%nat. cbn. split; [lia|]. split; [lra|]. field.
  - apply C108_past_the_end; auto; cbn; [lia|lra].
Qed.
