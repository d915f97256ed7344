(** C175: the first right-hand side, rhs_class.py call (160-307). *)
From Coq Require Import String.
From Verif Require Import Py PyLemmas Legendre Cheb FuncModel DGModel DGSpec DGProofs DGInt DGBalance DGFinal GmatModel MatModel OptionModel OutProofs OldRhsModel.
Local Open Scope R_scope.

Definition as_written : repair := {| fix_P := false; fix_LU := false |}.
Definition repaired : repair := {| fix_P := true; fix_LU := true |}.

Lemma Ok_inj {A} (x y : A) : Ok x = Ok y -> x = y.
Proof. now intros [= ->]. Qed.
Lemma map_result_seq {B} (f : nat -> result B) n e : (1 <= n)%nat -> f 0%nat = Err e -> map_result f (seq 0 n) = Err e.
Proof. intros Hn H. destruct n as [|n]; [lia|]. cbn [seq map_result]. now rewrite H. Qed.

(** the call as it stands: make_LU is given one argument too few, so no run gets past the first cell *)
Lemma old_cell_fails f c v t V s : fix_LU f = false -> (1 <= old_ang c)%nat -> forall r, old_cell f c v t V s <> Ok r.
Proof.
  intros Hf Ha r. unfold old_cell. destruct (key (couple c) "none") as [none|]; cbn [bind]; [|discriminate].
  destruct (old_GL c v s) as [GL|]; cbn [bind]; [|discriminate]. destruct (old_P f c (none =? 0)%Z V s) as [P|]; cbn [bind]; [|discriminate].
  destruct (none =? 0)%Z.
  - unfold old_energy, old_LU at 1. rewrite Hf. cbn [bind]. discriminate.
  - cbn [bind]. rewrite (map_result_seq _ (old_ang c) TypeError); [cbn [bind]; discriminate|auto|]. unfold old_LU. rewrite Hf. reflexivity.
Qed.
Theorem C175_first_rhs_never_returns : forall c v t V,
  (1 <= fN (oflux c))%nat -> (1 <= old_ang c)%nat -> forall r, old_call as_written c v t V <> Ok r.
Proof.
  intros c v t V HN Ha r. unfold old_call. destruct (key (couple c) "none") as [none|]; cbn [bind]; [|discriminate].
  destruct ((none =? 1)%Z || (none =? 0)%Z)%bool; [|discriminate].
  destruct (fN (oflux c)) as [|n]; [lia|]. cbn [seq map_result].
  destruct (old_cell as_written c v t V 0) as [x|] eqn:E; cbn [bind]; [|discriminate].
  exfalso. now apply (old_cell_fails as_written c v t V 0 eq_refl Ha x).
Qed.
Print Assumptions C175_first_rhs_never_returns.

(** a coupled run hands make_P one row more than there are weights; with more than one direction that fails too *)
Theorem C175_first_rhs_coupled_rows : forall c v t V b, fgeom (oflux c) = Slab ->
  key (couple c) "none" = Ok 0%Z -> key (sfun c) "constant" = Ok 1%Z -> (1 <= fN (oflux c))%nat -> (2 <= old_ang c)%nat ->
  old_call {| fix_P := false; fix_LU := b |} c v t V = Err ValueError.
Proof.
  intros c v t V b Hg Hc Hs HN Ha. unfold old_call. rewrite Hc. cbn [bind orb Z.eqb]. apply map_result_seq; [auto|].
  unfold old_cell. rewrite Hc. cbn [bind Z.eqb]. unfold old_GL. rewrite Hg. cbn [bind]. unfold old_P. rewrite Hs. cbn [bind fix_P Z.eqb].
  change (1 =? 1)%Z with true. cbv iota. unfold multiply_P.
  destruct (Nat.eqb_spec (old_ang c + 1) (old_ang c)); [lia|]. destruct (Nat.eqb_spec (old_ang c) 1); [lia|].
  destruct (Nat.eqb_spec (old_ang c + 1) 1); [lia|]. reflexivity.
Qed.
Print Assumptions C175_first_rhs_coupled_rows.

(** an opacity that is not constant asks for the key "siewert" (the options are called siewert1 and siewert2); uncoupled
    runs stop there, coupled runs read P before it is bound *)
Theorem C175_first_rhs_other_opacity : forall f c v t V z k, key (couple c) "none" = Ok k ->
  key (sfun c) "constant" = Ok z -> z <> 1%Z -> ConfigModel.assoc "siewert" (sfun c) = None ->
  (k = 1%Z \/ old_c c <> 0) -> (1 <= fN (oflux c))%nat -> (1 <= old_ang c)%nat -> forall r, old_call f c v t V <> Ok r.
Proof.
  intros f c v t V z k Hc Hs Hz Hw Hk HN Ha r. unfold old_call. rewrite Hc. cbn [bind].
  destruct (Z.eqb_spec k 1) as [->|K1]; [|destruct (Z.eqb_spec k 0) as [->|]; [|discriminate]]; cbn [orb].
  - destruct (fN (oflux c)) as [|n]; [lia|]. cbn [seq map_result].
    destruct (old_cell f c v t V 0) as [x|] eqn:E; cbn [bind]; [|discriminate]. exfalso. revert E. unfold old_cell. rewrite Hc. cbn [bind Z.eqb].
    destruct (old_GL c v 0) as [GL|]; cbn [bind]; [|discriminate]. destruct (old_P f c false V 0) as [P|]; cbn [bind]; [|discriminate].
    assert (F : exists e, (LU <- old_LU f c v t (V 0%nat) 0 0 (old_mus c 0) ;; old_single c v (fst GL) (snd GL) V P LU 0 0) = Err e).
    { unfold old_LU. destruct (fix_LU f); cbn [bind]; [|eauto]. unfold old_single. rewrite Hs. cbn [bind].
      destruct (Z.eqb_spec z 1); [contradiction|]. unfold key. rewrite Hw. cbn [bind]. eauto. }
    destruct F as [e F]. rewrite (map_result_seq _ (old_ang c) e Ha); [cbn [bind]; discriminate|exact F].
  - destruct Hk as [Hk|Hk]; [discriminate|].
    destruct (fN (oflux c)) as [|n]; [lia|]. cbn [seq map_result].
    destruct (old_cell f c v t V 0) as [x|] eqn:E; cbn [bind]; [|discriminate]. exfalso. revert E. unfold old_cell. rewrite Hc. cbn [bind Z.eqb].
    destruct (old_GL c v 0) as [GL|]; cbn [bind]; [|discriminate]. unfold old_P. rewrite Hs. cbn [bind].
    destruct (Z.eqb_spec z 1); [contradiction|]. rewrite Reqb_false by auto. cbn [bind]. unfold old_energy, old_LU at 1.
    destruct (fix_LU f); cbn [bind]; discriminate.
Qed.
Print Assumptions C175_first_rhs_other_opacity.
(** a mean free path of zero: the coupled call divides by it, except in the branch with the speed of light *)
Theorem C175_first_rhs_no_path : forall f c v t V, key (couple c) "none" = Ok 0%Z -> old_l c = 0 -> (1 <= fN (oflux c))%nat -> (1 <= old_ang c)%nat ->
  old_ang c = 2%nat \/ uncollided_on (oflux c) = true \/ old_dim c = false -> forall r, old_call f c v t V <> Ok r.
Proof.
  intros f c v t V Hc Hl HN Ha Hd r. unfold old_call. rewrite Hc. cbn [bind Z.eqb orb].
  destruct (fN (oflux c)) as [|n]; [lia|]. cbn [seq map_result].
  destruct (old_cell f c v t V 0) as [x|] eqn:E; cbn [bind]; [|discriminate]. exfalso. revert E. unfold old_cell. rewrite Hc. cbn [bind Z.eqb].
  destruct (old_GL c v 0) as [GL|]; cbn [bind]; [|discriminate]. destruct (old_P f c true V 0) as [P|]; cbn [bind]; [|discriminate].
  destruct (old_energy f c v t (fst GL) V P 0) as [e|] eqn:Ee; cbn [bind]; [|discriminate].
  assert (F : exists e, (LU <- old_LU f c v t (V 0%nat) 0 0 (old_mus c 0) ;; old_coupled c v (fst GL) (snd GL) V P LU 0 0) = Err e).
  { unfold old_LU. destruct (fix_LU f); cbn [bind]; [|eauto]. unfold old_coupled. destruct P as [P|]; cbn [bind]; [|eauto].
    destruct (negb (old_ang c =? 2)%nat && negb (uncollided_on (oflux c)) && old_dim c)%bool eqn:B.
    - exfalso. apply andb_prop in B. destruct B as [B B3]. apply andb_prop in B. destruct B as [B1 B2]. apply negb_true_iff in B1, B2. apply Nat.eqb_neq in B1. destruct Hd as [?|[?|?]]; congruence.
    - cbv zeta. rewrite Hl, Reqb_refl. eauto. }
  destruct F as [e' F]. rewrite (map_result_seq _ (old_ang c) e' Ha); [cbn [bind]; discriminate|exact F].
Qed.
Print Assumptions C175_first_rhs_no_path.

(** self.epsilon is never assigned: the dimensional branch divides by zero *)
Theorem C175_first_rhs_dimensional : forall f c v t V, key (couple c) "none" = Ok 1%Z -> key (sfun c) "constant" = Ok 1%Z ->
  uncollided_on (oflux c) = false -> old_dim c = true -> eps c = 0 -> (1 <= fN (oflux c))%nat -> (1 <= old_ang c)%nat ->
  forall r, old_call f c v t V <> Ok r.
Proof.
  intros f c v t V Hc Hs Hu Hd He HN Ha r. unfold old_call. rewrite Hc. cbn [bind].
  change ((1 =? 1)%Z || (1 =? 0)%Z)%bool with true. cbv iota. destruct (fN (oflux c)) as [|n]; [lia|]. cbn [seq map_result].
  destruct (old_cell f c v t V 0) as [x|] eqn:E; cbn [bind]; [|discriminate]. exfalso. revert E. unfold old_cell. rewrite Hc. cbn [bind].
  change (1 =? 0)%Z with false. change (1 =? 1)%Z with true. cbv iota.
  destruct (old_GL c v 0) as [GL|]; cbn [bind]; [|discriminate]. destruct (old_P f c false V 0) as [P|]; cbn [bind]; [|discriminate].
  assert (F : exists e, (LU <- old_LU f c v t (V 0%nat) 0 0 (old_mus c 0) ;; old_single c v (fst GL) (snd GL) V P LU 0 0) = Err e).
  { unfold old_LU. destruct (fix_LU f); cbn [bind]; [|eauto]. unfold old_single. rewrite Hs. cbn [bind]. change (1 =? 1)%Z with true. cbv iota.
    destruct P as [P|]; cbn [bind]; [|eauto]. rewrite Hu, Hd. cbn [negb]. cbv zeta. unfold over at 1. rewrite He, Reqb_refl. cbn [bind]. eauto. }
  destruct F as [e F]. rewrite (map_result_seq _ (old_ang c) e Ha); [cbn [bind]; discriminate|exact F].
Qed.
Print Assumptions C175_first_rhs_dimensional.

(** * With both calls repaired *)
Lemma old_P_repaired c b V s : key (sfun c) "constant" = Ok 1%Z ->
  old_P repaired c b V s = Ok (Ok (fun i => make_P (old_ang c) (old_ws c) (fun l j => V l s j) i)).
Proof. intros Hs. unfold old_P. rewrite Hs. cbn [bind repaired fix_P]. change (1 =? 1)%Z with true. cbv iota. unfold multiply_P. rewrite Nat.eqb_refl. reflexivity. Qed.

(** rows of an uncoupled slab call *)
Lemma old_call_rows c v t V row : fgeom (oflux c) = Slab -> key (couple c) "none" = Ok 1%Z -> key (sfun c) "constant" = Ok 1%Z ->
  (forall s a, (s < fN (oflux c))%nat -> (a < old_ang c)%nat ->
     old_single c v (G_slab (env_edges v s) (env_edges v (s + 1)%nat) (env_D v s) (env_D v (s + 1)%nat)) (L_slab (env_edges v s) (env_edges v (s + 1)%nat)) V
       (Ok (fun i => make_P (old_ang c) (old_ws c) (fun l j => V l s j) i))
       (snd (make_LU (oflux c) (env_st v a s) t (env_edges v) (env_D v) (V a) s (old_mus c a) (fun _ => 0))) s a = Ok (row s a)) ->
  old_call repaired c v t V = Ok (map (fun s => (map (row s) (seq 0 (old_ang c)), nil)) (seq 0 (fN (oflux c)))).
Proof.
  intros Hg Hc Hs H. unfold old_call. rewrite Hc. cbn [bind]. change ((1 =? 1)%Z || (1 =? 0)%Z)%bool with true. cbv iota.
  apply map_result_ok_in. intros s Is. apply in_seq in Is. unfold old_cell. rewrite Hc. cbn [bind]. change (1 =? 0)%Z with false. change (1 =? 1)%Z with true. cbv iota.
  unfold old_GL. rewrite Hg. cbv zeta. cbn [bind]. rewrite old_P_repaired by auto. cbn [bind fst snd].
  rewrite (map_result_ok_in _ (row s)); [reflexivity|]. intros a Ia. apply in_seq in Ia. unfold old_LU. cbn [repaired fix_LU bind]. apply H; lia.
Qed.

Theorem C175_first_rhs_slab : forall c v t V, fgeom (oflux c) = Slab -> key (couple c) "none" = Ok 1%Z -> key (sfun c) "constant" = Ok 1%Z ->
  old_dim c = false \/ uncollided_on (oflux c) = true ->
  exists out, old_call repaired c v t V = Ok out /\ length out = fN (oflux c) /\
  forall s a i, (s < fN (oflux c))%nat -> (a < old_ang c)%nat ->
    nth a (fst (nth s out (nil, nil))) (fun _ => 0) i =
    (if uncollided_on (oflux c)
     then slab_rhs_uncollided (oflux c) (env_st v a s) (old_ang c) (old_ws c) (old_mus c) (old_c c) t (env_edges v) (env_D v) (env_S v a s) V a s i
     else slab_rhs (oflux c) (env_st v a s) (old_ang c) (old_ws c) (old_mus c) (old_c c) t (env_edges v) (env_D v) (env_S v a s) V a s i).
Proof.
  intros c v t V Hg Hc Hs Hd.
  pose (row := fun s a i => if uncollided_on (oflux c)
     then slab_rhs_uncollided (oflux c) (env_st v a s) (old_ang c) (old_ws c) (old_mus c) (old_c c) t (env_edges v) (env_D v) (env_S v a s) V a s i
     else slab_rhs (oflux c) (env_st v a s) (old_ang c) (old_ws c) (old_mus c) (old_c c) t (env_edges v) (env_D v) (env_S v a s) V a s i).
  exists (map (fun s => (map (row s) (seq 0 (old_ang c)), nil)) (seq 0 (fN (oflux c)))). split; [|split].
  - apply old_call_rows; auto. intros s a Hn Ha. unfold old_single. rewrite Hs. cbn [bind]. change (1 =? 1)%Z with true. cbv iota. unfold row.
    destruct (uncollided_on (oflux c)); cbn [negb]; [reflexivity|]. destruct Hd as [->|]; [|discriminate]. cbn [negb]. rewrite Hg. reflexivity.
  - now rewrite map_length, seq_length.
  - intros s a i Hn Ha. rewrite (nth_indep _ _ ((fun s => (map (row s) (seq 0 (old_ang c)), nil)) 0%nat)) by (rewrite map_length, seq_length; auto).
    rewrite (map_nth (fun s => (map (row s) (seq 0 (old_ang c)), nil))), seq_nth by auto. cbn [fst].
    rewrite (nth_indep _ _ (row (0 + s)%nat 0%nat)) by (rewrite map_length, seq_length; auto). rewrite (map_nth (row (0 + s)%nat)), seq_nth by auto. reflexivity.
Qed.
Print Assumptions C175_first_rhs_slab.

(** the coupled run, not dimensional (or dimensional with two directions, for the radiation) *)
Theorem C175_first_rhs_coupled : forall c v t V, fgeom (oflux c) = Slab -> key (couple c) "none" = Ok 0%Z -> key (sfun c) "constant" = Ok 1%Z ->
  old_dim c = false -> old_l c <> 0 -> (forall a s i, env_S v a s i = env_S v 0 s i) ->
  exists out, old_call repaired c v t V = Ok out /\ length out = fN (oflux c) /\
  forall s i, (s < fN (oflux c))%nat ->
    (forall a, (a < old_ang c)%nat -> nth a (fst (nth s out (nil, nil))) (fun _ => 0) i =
       slab_rhs_thermal (oflux c) (env_st v a s) (old_ang c) (old_ws c) (old_mus c) (old_c c) (old_ca c) (old_l c) t (env_edges v) (env_D v) (env_H v s) (env_S v a s) V a s i) /\
    nth 0 (snd (nth s out (nil, nil))) (fun _ => 0) i =
       slab_energy (oflux c) (env_st v (old_ang c) s) (old_ang c) (old_ws c) (old_ca c) (old_l c) t (env_edges v) (env_D v) (env_H v s) (env_S v 0 s) V (V (old_ang c)) s i.
Proof.
  intros c v t V Hg Hc Hs Hd Hl HS.
  pose (row := fun s a i => slab_rhs_thermal (oflux c) (env_st v a s) (old_ang c) (old_ws c) (old_mus c) (old_c c) (old_ca c) (old_l c) t (env_edges v) (env_D v) (env_H v s) (env_S v a s) V a s i).
  assert (Hcell : forall s, (s < fN (oflux c))%nat -> exists out, old_cell repaired c v t V s = Ok out /\ 
    forall i, (forall a, (a < old_ang c)%nat -> nth a (fst out) (fun _ => 0) i = row s a i) /\
    nth 0 (snd out) (fun _ => 0) i = slab_energy (oflux c) (env_st v (old_ang c) s) (old_ang c) (old_ws c) (old_ca c) (old_l c) t (env_edges v) (env_D v) (env_H v s) (env_S v 0 s) V (V (old_ang c)) s i).
  { intros s Hn. unfold old_cell. rewrite Hc. cbn [bind]. change (0 =? 0)%Z with true. change (0 =? 1)%Z with false. cbv iota.
    unfold old_GL. rewrite Hg. cbv zeta. cbn [bind]. rewrite old_P_repaired by auto. cbn [bind fst snd].
    unfold old_energy at 1, old_LU at 1. cbn [repaired fix_LU bind]. rewrite Hd. unfold over at 1. rewrite Reqb_false by auto. cbn [bind].
    assert (K : map_result (fun angle => LU <- old_LU repaired c v t (V angle) angle s (old_mus c angle) ;;
        old_coupled c v (G_slab (env_edges v s) (env_edges v (s + 1)%nat) (env_D v s) (env_D v (s + 1)%nat)) (L_slab (env_edges v s) (env_edges v (s + 1)%nat)) V
          (Ok (fun i => make_P (old_ang c) (old_ws c) (fun l j => V l s j) i)) LU s angle) (seq 0 (old_ang c)) = Ok (map (row s) (seq 0 (old_ang c)))).
    { apply map_result_ok_in. intros a Ia. unfold old_LU. cbn [repaired fix_LU bind]. unfold old_coupled. cbn [bind]. cbv zeta.
      rewrite Hd, Bool.andb_false_r, Reqb_false by auto. unfold row, slab_rhs_thermal. cbv zeta.
      destruct (old_ang c =? 2)%nat, (uncollided_on (oflux c)); reflexivity. }
    assert (R : forall a i, (a < old_ang c)%nat -> nth a (map (row s) (seq 0 (old_ang c))) (fun _ => 0) i = row s a i).
    { intros a i Ha. rewrite (nth_indep _ _ (row s 0%nat)) by (rewrite map_length, seq_length; auto). now rewrite (map_nth (row s)), seq_nth by auto. }
    destruct (uncollided_on (oflux c)) eqn:Hu.
    - unfold over. rewrite Reqb_false by auto. cbn [bind]. match goal with |- context [map_result ?f ?q] => change (map_result f q) with (map_result (fun angle : nat => LU <- old_LU repaired c v t (V angle) angle s (old_mus c angle) ;; old_coupled c v (G_slab (env_edges v s) (env_edges v (s + 1)%nat) (env_D v s) (env_D v (s + 1)%nat)) (L_slab (env_edges v s) (env_edges v (s + 1)%nat)) V (Ok (fun i => make_P (old_ang c) (old_ws c) (fun l j => V l s j) i)) LU s angle) q) end. rewrite K. cbn [bind]. eexists. split; [reflexivity|]. cbn [fst snd nth]. intros i. split; [auto|].
      unfold slab_energy. rewrite Hu. reflexivity.
    - cbn [bind]. match goal with |- context [map_result ?f ?q] => change (map_result f q) with (map_result (fun angle : nat => LU <- old_LU repaired c v t (V angle) angle s (old_mus c angle) ;; old_coupled c v (G_slab (env_edges v s) (env_edges v (s + 1)%nat) (env_D v s) (env_D v (s + 1)%nat)) (L_slab (env_edges v s) (env_edges v (s + 1)%nat)) V (Ok (fun i => make_P (old_ang c) (old_ws c) (fun l j => V l s j) i)) LU s angle) q) end. rewrite K. cbn [bind]. eexists. split; [reflexivity|]. cbn [fst snd nth]. intros i. split; [auto|].
      unfold slab_energy. rewrite Hu. reflexivity. }
  pose (cell := fun s => match old_cell repaired c v t V s with Ok x => x | Err _ => (nil, nil) end).
  exists (map cell (seq 0 (fN (oflux c)))). split; [|split].
  - unfold old_call. rewrite Hc. cbn [bind]. change ((0 =? 1)%Z || (0 =? 0)%Z)%bool with true. cbv iota. apply map_result_ok_in. intros s Is. apply in_seq in Is.
    destruct (Hcell s) as (out & E & _); [lia|]. unfold cell. now rewrite E.
  - now rewrite map_length, seq_length.
  - intros s i Hn. rewrite (nth_indep _ _ (cell 0%nat)) by (rewrite map_length, seq_length; auto). rewrite map_nth, seq_nth by auto. cbn [Nat.add].
    destruct (Hcell s Hn) as (out & E & Hout). unfold cell. rewrite E. apply Hout.
Qed.
Print Assumptions C175_first_rhs_coupled.

(** * The dimensional branches *)
(** a field with the same value k everywhere *)
Definition flat (n : nat) (e : nat -> R) (k : R) (u : nat -> nat -> R) : Prop :=
  forall s j, (s < n)%nat -> u s j = if (j =? 0)%nat then k * sqrt (e (S s) - e s) else 0.
Lemma flat_LU c st t e D u mul k s i : fgeom c = Slab -> increasing (fN c) e -> flat (fN c) e k u -> (0 < s < fN c - 1)%nat ->
  snd (make_LU c st t e D u s mul (fun _ => 0)) i =
  k * (sqrt (2 * INR i + 1) / sqrt (e (S s) - e s)) * ((mul - D (S s)) - (-1) ^ i * (mul - D s)).
Proof.
  intros Hg He Hu Hs. destruct (LU_formula c t e D u mul (fun _ => 0) ltac:(lia) He st s i) as (vl & vr & F1 & F2 & ->); [lia|].
  assert (Fc : forall f v, (0 < f < fN c)%nat -> face c t e D u mul (fun _ => 0) f v -> v = k).
  { intros f v Hf H. inversion H; subst; try lia; rewrite Hg; apply const_field; try (apply He; lia); intros; apply Hu; lia. }
  rewrite (Fc s vl), (Fc (S s) vr) by (auto; lia). rewrite Hg. cbn [wt]. rewrite basis_slab_l, basis_slab_r by (apply He; lia). ring.
Qed.
Lemma flat_dot n A e k u s i N : flat N e k u -> (s < N)%nat -> (0 < n)%nat -> dotv n A (u s) i = A i 0%nat * (k * sqrt (e (S s) - e s)).
Proof.
  intros Hu Hs Hn. unfold dotv. rewrite (sumn_single _ _ 0%nat); auto. - rewrite Hu by auto. reflexivity.
  - intros j _ Hj. rewrite Hu by auto. apply Nat.eqb_neq in Hj. rewrite Hj. ring.
Qed.

(** uncoupled: with an epsilon that is not zero the row is that of the equation multiplied through ... *)
Definition dim_row (c : old_cfg) (v : old_env) (t : R) (V : nat -> nat -> nat -> R) (s a i : nat) : R :=
  let n := (fM (oflux c) + 1)%nat in
  let e := env_edges v in let D := env_D v in
  dotv n (G_slab (e s) (e (s + 1)%nat) (D s) (D (s + 1)%nat)) (V a s) i
  - snd (make_LU (oflux c) (env_st v a s) t e D (V a) s (old_mus c a) (fun _ => 0)) i / eps c
  + old_mus c a * dotv n (L_slab (e s) (e (s + 1)%nat)) (V a s) i / eps c
  - V a s i / eps c ^ 2 + old_c c * make_P (old_ang c) (old_ws c) (fun l j => V l s j) i / eps c ^ 2 + 1 / 2 * env_S v a s i.
Lemma dim_rows c v t V : fgeom (oflux c) = Slab -> key (couple c) "none" = Ok 1%Z -> key (sfun c) "constant" = Ok 1%Z ->
  uncollided_on (oflux c) = false -> old_dim c = true -> eps c <> 0 ->
  old_call repaired c v t V = Ok (map (fun s => (map (dim_row c v t V s) (seq 0 (old_ang c)), nil)) (seq 0 (fN (oflux c)))).
Proof.
  intros Hg Hc Hs Hu Hd He. apply old_call_rows; auto. intros s a Hn Ha. unfold old_single. rewrite Hs. cbn [bind]. change (1 =? 1)%Z with true. cbv iota.
  rewrite Hu, Hd. cbn [negb]. cbv zeta. unfold over. rewrite !(Reqb_false (eps c) 0), (Reqb_false (eps c ^ 2) 0) by (auto; apply pow_nonzero; auto). reflexivity.
Qed.
Lemma nth_rows (row : nat -> nat -> nat -> R) n m s a : (s < n)%nat -> (a < m)%nat ->
  nth a (fst (nth s (map (fun s => (map (row s) (seq 0 m), @nil (nat -> R))) (seq 0 n)) (nil, nil))) (fun _ => 0) = row s a.
Proof.
  intros Hs Ha. rewrite (nth_indep _ _ ((fun s => (map (row s) (seq 0 m), nil)) 0%nat)) by (rewrite map_length, seq_length; auto).
  rewrite (map_nth (fun s => (map (row s) (seq 0 m), nil))), seq_nth by auto. cbn [fst].
  rewrite (nth_indep _ _ (row (0 + s)%nat 0%nat)) by (rewrite map_length, seq_length; auto). now rewrite (map_nth (row (0 + s)%nat)), seq_nth by auto.
Qed.

(** ... and on a mesh at rest the particles of a cell balance: through the faces at 1/eps, removed and scattered at 1/eps^2 *)
Theorem C175_first_rhs_epsilon : forall c v t (V : nat -> nat -> nat -> R -> R), fgeom (oflux c) = Slab -> key (couple c) "none" = Ok 1%Z ->
  key (sfun c) "constant" = Ok 1%Z -> uncollided_on (oflux c) = false -> old_dim c = true -> eps c <> 0 -> (2 <= fN (oflux c))%nat ->
  increasing (fN (oflux c)) (env_edges v) -> (forall k, (k <= fN (oflux c))%nat -> env_D v k = 0) ->
  exists out, old_call repaired c v t (fun a s j => V a s j t) = Ok out /\
  forall s a vl vr, (s < fN (oflux c))%nat -> (a < old_ang c)%nat ->
    is_derive (V a s 0%nat) t (nth a (fst (nth s out (nil, nil))) (fun _ => 0) 0%nat) ->
    face (oflux c) t (env_edges v) (env_D v) (fun k j => V a k j t) (old_mus c a) (fun _ => 0) s vl ->
    face (oflux c) t (env_edges v) (env_D v) (fun k j => V a k j t) (old_mus c a) (fun _ => 0) (S s) vr ->
    is_derive (content (oflux c) (fun k _ => env_edges v k) (V a s) s) t
      (old_mus c a * (vl - vr) / eps c
       - content (oflux c) (fun k _ => env_edges v k) (V a s) s t / eps c ^ 2
       + old_c c * sumn (old_ang c) (fun l => old_ws c l * content (oflux c) (fun k _ => env_edges v k) (V l s) s t) / eps c ^ 2
       + 1 / 2 * scontent (oflux c) (env_edges v) (env_S v a s) s).
Proof.
  intros c v t V Hg Hc Hs Hu Hd Hz HN He HD. eexists. split; [apply dim_rows; auto|].
  intros s a vl vr Hn Ha DV F1 F2. rewrite nth_rows in DV by auto.
  destruct (LU_formula (oflux c) t (env_edges v) (env_D v) (fun k j => V a k j t) (old_mus c a) (fun _ => 0) HN He (env_st v a s) s 0 Hn) as (wl & wr & G1 & G2 & HLU).
  rewrite (face_fun (oflux c) t _ (env_D v) (fun k j => V a k j t) (old_mus c a) _ HN He s wl vl G1 F1) in HLU.
  rewrite (face_fun (oflux c) t _ (env_D v) (fun k j => V a k j t) (old_mus c a) _ HN He (S s) wr vr G2 F2) in HLU.
  assert (Hlt : env_edges v s < env_edges v (S s)) by (apply He; auto).
  assert (Hr : 0 < sqrt (env_edges v (S s) - env_edges v s)) by (apply sqrt_lt_R0; lra).
  assert (CN : forall U, content (oflux c) (fun k _ => env_edges v k) U s t = sqrt (env_edges v (S s) - env_edges v s) * U 0%nat t).
  { intros U. unfold content. apply int_uniq. apply (int_field (fM (oflux c)) (fun j => U j t)). exact Hlt. }
  assert (Q : forall w, content (oflux c) (fun k _ => env_edges v k) (V a s) s w = sqrt (env_edges v (S s) - env_edges v s) * V a s 0%nat w).
  { intros w. unfold content. apply int_uniq. apply (int_field (fM (oflux c)) (fun j => V a s j w)). exact Hlt. }
  eapply dd_eq; [eapply (dd_ext (fun w => sqrt (env_edges v (S s) - env_edges v s) * V a s 0%nat w)); [intros; symmetry; apply Q|]; apply dd_scal; exact DV|].
  assert (SP : sqrt (env_edges v (S s) - env_edges v s) * make_P (old_ang c) (old_ws c) (fun l j => V l s j t) 0 =
    sumn (old_ang c) (fun l => old_ws c l * content (oflux c) (fun k _ => env_edges v k) (V l s) s t)).
  { unfold make_P. rewrite <- sumn_scal. apply sumn_ext. intros l _. rewrite CN. ring. }
  rewrite <- SP, CN. unfold scontent. rewrite (int_uniq _ _ _ _ (int_field (fM (oflux c)) (env_S v a s) _ _ Hlt)).
  unfold dim_row. cbv zeta. rewrite HLU, !Nat.add_1_r, dotv_L0, dotv_G0, Hg by (auto; lia). cbn [wt]. rewrite (HD s), (HD (S s)) by lia.
  rewrite basis_slab_l, basis_slab_r by auto. cbn [pow INR]. replace (2 * 0 + 1) with 1 by ring. rewrite sqrt_1. field. repeat split; auto; lra.
Qed.
Print Assumptions C175_first_rhs_epsilon.

(** On a mesh that moves the branch is wrong: the motion enters LU, which is divided by epsilon, and G, which is not.  A field
    with the same value k everywhere, scattered without loss, should stay: its first coefficient k*sqrt(width) grows at the
    rate k*(speed of widening)/(2*sqrt(width)).  The call returns that rate times 2/epsilon - 1. *)
Theorem C175_first_rhs_epsilon_moving : forall c v t V k, fgeom (oflux c) = Slab -> key (couple c) "none" = Ok 1%Z ->
  key (sfun c) "constant" = Ok 1%Z -> uncollided_on (oflux c) = false -> old_dim c = true -> eps c <> 0 -> old_c c = 1 ->
  sumn (old_ang c) (old_ws c) = 1 -> increasing (fN (oflux c)) (env_edges v) ->
  (forall a, (a < old_ang c)%nat -> flat (fN (oflux c)) (env_edges v) k (V a)) -> (forall a s i, env_S v a s i = 0) ->
  exists out, old_call repaired c v t V = Ok out /\
  forall s a, (0 < s < fN (oflux c) - 1)%nat -> (a < old_ang c)%nat ->
    nth a (fst (nth s out (nil, nil))) (fun _ => 0) 0%nat =
    (2 / eps c - 1) * (k * (env_D v (S s) - env_D v s) / (2 * sqrt (env_edges v (S s) - env_edges v s))).
Proof.
  intros c v t V k Hg Hc Hs Hu Hd Hz H1 Hw He HV HS. eexists. split; [apply dim_rows; auto|].
  intros s a Hn Ha. rewrite nth_rows by (auto; lia). unfold dim_row. cbv zeta. rewrite !Nat.add_1_r.
  rewrite (flat_LU (oflux c) (env_st v a s) t (env_edges v) (env_D v) (V a) (old_mus c a) k s 0) by (auto; lia).
  assert (Hlt : env_edges v s < env_edges v (S s)) by (apply He; lia).
  assert (P0 : make_P (old_ang c) (old_ws c) (fun l j => V l s j) 0 = k * sqrt (env_edges v (S s) - env_edges v s)).
  { unfold make_P. rewrite (sumn_ext _ _ (fun l => k * sqrt (env_edges v (S s) - env_edges v s) * old_ws c l)).
    - rewrite sumn_scal, Hw. ring. - intros l Hl. rewrite (HV l Hl s 0%nat) by lia. reflexivity. }
  rewrite P0, dotv_L0, dotv_G0, HS, H1, (HV a Ha s 0%nat) by (auto; lia). cbn [Nat.eqb pow INR]. replace (2 * 0 + 1) with 1 by ring. rewrite sqrt_1.
  pose proof (sqrt_sqrt (env_edges v (S s) - env_edges v s) ltac:(lra)) as SS.
  assert (Hr : 0 < sqrt (env_edges v (S s) - env_edges v s)) by (apply sqrt_lt_R0; lra).
  revert SS Hr. generalize (sqrt (env_edges v (S s) - env_edges v s)). intros r SS Hr. rewrite <- SS. field. repeat split; auto; lra.
Qed.
Print Assumptions C175_first_rhs_epsilon_moving.

(** a slab of three cells, one direction *)
Definition demo_flux : flux_cfg := {| fgeom := Slab; fM := 1; fN := 3; src4 := false; boundary_source := false; uncollided_on := false;
  ft0 := 0; bon_left := false; bon_right := false; strength := 0; fquad := nil |}.
Definition demo_old (none : Z) (cc ca : R) (dim : bool) (z : R) : old_cfg := {| oflux := demo_flux; old_ang := 1; old_ws := fun _ => 1; old_mus := fun _ => 1;
  old_c := cc; old_ca := ca; old_l := 1; old_dim := dim; eps := z; couple := ("none", none)%string :: nil; sfun := ("constant", 1%Z)%string :: nil |}.
Definition demo_env (D : nat -> R) (H : R) : old_env := {| env_edges := fun k => INR k; env_D := D; env_S := fun _ _ _ => 0; env_H := fun _ j => if (j =? 0)%nat then H else 0;
  env_VV := fun _ _ _ => 0; env_PV := fun _ _ => 0; env_tabs := {| Mass_coeff_even := fun _ _ _ => 0; Mass_coeff_odd := fun _ _ _ => 0; Mass_denom := fun _ _ => 1%Z; J_coeff := fun _ _ _ => 0; J_denom := fun _ _ => 1%Z; L_coeff_even := fun _ _ _ => 0; L_coeff_odd := fun _ _ _ => 0; L_denom := fun _ _ => 1%Z |}; env_inv := fun A => A; env_st := fun _ _ => {| sh := 0; shp := 0; shm := 0 |} |}.
Definition demo_V : nat -> nat -> nat -> R := fun _ _ j => if (j =? 0)%nat then 1 else 0.
Lemma demo_inc n : increasing n INR.
Proof. intros k _. rewrite S_INR. lra. Qed.
Lemma demo_flat n : flat n INR 1 (fun _ j => if (j =? 0)%nat then 1 else 0).
Proof. intros s j _. rewrite S_INR. replace (INR s + 1 - INR s) with 1 by ring. rewrite sqrt_1. destruct (j =? 0)%nat; ring. Qed.

(** the field that should stay does not: epsilon 1/2, edges moving apart *)
Theorem C175_flat_field_with_epsilon_refuted : exists c v t V out, old_call repaired c v t V = Ok out /\ old_c c = 1 /\
  sumn (old_ang c) (old_ws c) = 1 /\ (forall a, (a < old_ang c)%nat -> flat (fN (oflux c)) (env_edges v) 1 (V a)) /\ (forall a s i, env_S v a s i = 0) /\
  nth 0 (fst (nth 1 out (nil, nil))) (fun _ => 0) 0%nat <> 1 * (env_D v 2%nat - env_D v 1%nat) / (2 * sqrt (env_edges v 2%nat - env_edges v 1%nat)).
Proof.
  destruct (C175_first_rhs_epsilon_moving (demo_old 1 1 0 true (1 / 2)) (demo_env INR 0) 0 demo_V 1) as (out & E & F); try reflexivity; cbn; try lra.
  - apply demo_inc. - intros; apply demo_flat.
  - exists (demo_old 1 1 0 true (1 / 2)), (demo_env INR 0), 0, demo_V, out. split; [exact E|]. split; [reflexivity|]. split; [cbn; lra|].
    split; [intros; apply demo_flat|]. split; [reflexivity|]. rewrite F by (cbn; lia). cbn.
    replace (1 + 1 - 1) with 1 by ring. rewrite sqrt_1. lra.
Qed.
Print Assumptions C175_flat_field_with_epsilon_refuted.

(** Coupled, dimensional, more than two directions: streaming inside the cell is multiplied by 299.98, the exchange through the
    faces is not.  A flat field in balance with the emission (H = 2 P, c + c_a = 1) on a mesh at rest should not change at all;
    the call returns 298.98 times the streaming term in moment i. *)
Lemma coupled_dim_row c v t V s a : fgeom (oflux c) = Slab -> key (couple c) "none" = Ok 0%Z -> key (sfun c) "constant" = Ok 1%Z ->
  uncollided_on (oflux c) = false -> old_dim c = true -> old_ang c <> 2%nat ->
  forall out, old_call repaired c v t V = Ok out -> (s < fN (oflux c))%nat -> (a < old_ang c)%nat ->
  forall i, nth a (fst (nth s out (nil, nil))) (fun _ => 0) i =
    let n := (fM (oflux c) + 1)%nat in let e := env_edges v in let D := env_D v in
    dotv n (G_slab (e s) (e (s + 1)%nat) (D s) (D (s + 1)%nat)) (V a s) i
    - snd (make_LU (oflux c) (env_st v a s) t e D (V a) s (old_mus c a) (fun _ => 0)) i
    + light * old_mus c a * dotv n (L_slab (e s) (e (s + 1)%nat)) (V a s) i - light * V a s i
    + light * old_c c * make_P (old_ang c) (old_ws c) (fun l j => V l s j) i + light * env_S v a s i * (1 / 2) + light * old_ca c * (1 / 2) * env_H v s i.
Proof.
  intros Hg Hc Hs Hu Hd H2 out E Hn Ha i. revert E. unfold old_call. rewrite Hc. cbn [bind]. change ((0 =? 1)%Z || (0 =? 0)%Z)%bool with true. cbv iota. intro E.
  pose proof (map_result_nth_ok _ _ _ 0%nat (nil, nil) E s) as C. rewrite seq_length in C. specialize (C Hn). rewrite seq_nth in C by auto. cbn [Nat.add] in C.
  revert C. unfold old_cell. rewrite Hc. cbn [bind]. change (0 =? 0)%Z with true. change (0 =? 1)%Z with false. cbv iota.
  unfold old_GL. rewrite Hg. cbv zeta. cbn [bind]. rewrite old_P_repaired by auto. cbn [bind fst snd].
  match goal with |- context [old_energy ?f ?b ?d ?e ?g ?h ?k ?m] => destruct (old_energy f b d e g h k m) as [en|] end; cbn [bind]; [|discriminate].
  match goal with |- context [map_result ?f ?q] => destruct (map_result f q) as [rows|] eqn:Er end; cbn [bind]; [|discriminate].
  intros [= C]. rewrite <- C. cbn [fst].
  pose proof (map_result_nth_ok _ _ _ 0%nat (fun _ => 0) Er a) as R. rewrite seq_length in R. specialize (R Ha). rewrite seq_nth in R by auto. cbn [Nat.add] in R.
  revert R. unfold old_LU. cbn [repaired fix_LU bind]. unfold old_coupled. cbn [bind]. cbv zeta. rewrite Hd, Hu.
  destruct (Nat.eqb_spec (old_ang c) 2); [contradiction|]. cbn [negb andb]. intro R. apply Ok_inj in R. rewrite <- R. reflexivity.
Qed.
Lemma map_result_total {A B} (f : A -> result B) l : (forall x, In x l -> exists y, f x = Ok y) -> exists r, map_result f l = Ok r.
Proof.
  induction l as [|x l IH]; intros H; [now exists nil|]. destruct (H x) as [y E]; [now left|]. destruct IH as [r R]; [intros; apply H; now right|].
  exists (y :: r). cbn [map_result]. now rewrite E, R.
Qed.
Lemma coupled_dim_ok c v t V : fgeom (oflux c) = Slab -> key (couple c) "none" = Ok 0%Z -> key (sfun c) "constant" = Ok 1%Z ->
  uncollided_on (oflux c) = false -> old_dim c = true -> old_ang c <> 2%nat -> exists out, old_call repaired c v t V = Ok out.
Proof.
  intros Hg Hc Hs Hu Hd H2. unfold old_call. rewrite Hc. cbn [bind]. change ((0 =? 1)%Z || (0 =? 0)%Z)%bool with true. cbv iota.
  apply map_result_total. intros s _. unfold old_cell. rewrite Hc. cbn [bind]. change (0 =? 0)%Z with true. change (0 =? 1)%Z with false. cbv iota.
  unfold old_GL. rewrite Hg. cbv zeta. cbn [bind]. rewrite old_P_repaired by auto. cbn [bind fst snd].
  unfold old_energy, old_LU at 1. cbn [repaired fix_LU bind]. rewrite Hd, Hu. cbn [bind].
  match goal with |- context [map_result ?f ?q] => destruct (map_result_total f q) as [r R] end; [|rewrite R; cbn [bind]; eexists; reflexivity].
  intros a _. unfold old_LU. cbn [fix_LU bind]. unfold old_coupled. cbn [bind]. cbv zeta. rewrite Hd, Hu.
  destruct (Nat.eqb_spec (old_ang c) 2); [contradiction|]. cbn [negb andb]. eexists. reflexivity.
Qed.
Theorem C175_first_rhs_light : forall c v t V k, fgeom (oflux c) = Slab -> key (couple c) "none" = Ok 0%Z -> key (sfun c) "constant" = Ok 1%Z ->
  uncollided_on (oflux c) = false -> old_dim c = true -> old_ang c <> 2%nat -> old_c c + old_ca c = 1 -> sumn (old_ang c) (old_ws c) = 1 ->
  increasing (fN (oflux c)) (env_edges v) -> (forall s, env_D v s = 0) -> (forall a s i, env_S v a s i = 0) ->
  (forall a, (a < old_ang c)%nat -> flat (fN (oflux c)) (env_edges v) k (V a)) ->
  (forall s i, env_H v s i = 2 * make_P (old_ang c) (old_ws c) (fun l j => V l s j) i) ->
  exists out, old_call repaired c v t V = Ok out /\
  forall s a i, (0 < s < fN (oflux c) - 1)%nat -> (a < old_ang c)%nat ->
    nth a (fst (nth s out (nil, nil))) (fun _ => 0) i =
    (29898 / 100) * old_mus c a * k * (1 - (-1) ^ i) * sqrt (2 * INR i + 1) / sqrt (env_edges v (S s) - env_edges v s).
Proof.
  intros c v t V k Hg Hc Hs Hu Hd H2 Hca Hw He HD HS HV HH. destruct (coupled_dim_ok c v t V) as [out E]; auto. exists out. split; [auto|].
  intros s a i Hn Ha. rewrite (coupled_dim_row c v t V s a Hg Hc Hs Hu Hd H2 out E) by (auto; lia). cbv zeta. rewrite HS, HH.
  assert (Hlt : env_edges v s < env_edges v (S s)) by (apply He; lia).
  assert (PV : make_P (old_ang c) (old_ws c) (fun l j => V l s j) i = V a s i).
  { unfold make_P. rewrite (sumn_ext _ _ (fun l => V a s i * old_ws c l)).
    - rewrite sumn_scal, Hw. ring. - intros l Hl. rewrite (HV l Hl s i), (HV a Ha s i) by lia. ring. }
  rewrite PV, !Nat.add_1_r. rewrite (flat_LU (oflux c) (env_st v a s) t (env_edges v) (env_D v) (V a) (old_mus c a) k s i) by (auto; lia).
  rewrite !(flat_dot _ _ (env_edges v) k (V a) s i (fN (oflux c))) by (auto; lia). rewrite !HD. replace (old_c c) with (1 - old_ca c) by lra.
  unfold G_slab, L_slab, L_const, light. cbv zeta.
  assert (Hr : 0 < sqrt (env_edges v (S s) - env_edges v s)) by (apply sqrt_lt_R0; lra).
  pose proof (sqrt_sqrt (env_edges v (S s) - env_edges v s) ltac:(lra)) as SS. revert SS Hr. generalize (sqrt (env_edges v (S s) - env_edges v s)). intros r SS Hr.
  rewrite odd_of_mod, mod2_even, pow_m1, Nat.add_0_r, <- Nat.negb_even. rewrite <- SS.
  destruct (Nat.eqb_spec i 0) as [->|Hi0].
  - cbn [Nat.ltb Nat.leb andb Nat.even INR]. field. lra.
  - destruct (Nat.ltb_spec 0 i); [|lia]. cbn [andb INR]. replace (2 * 0 + 1) with 1 by ring. rewrite sqrt_1.
    destruct (Nat.even i); cbn [negb]; field; lra.
Qed.
Print Assumptions C175_first_rhs_light.
(** so a field in balance does not stay *)
Theorem C175_flat_balance_with_light_refuted : exists c v t V out, old_call repaired c v t V = Ok out /\ old_c c + old_ca c = 1 /\
  sumn (old_ang c) (old_ws c) = 1 /\ (forall a, (a < old_ang c)%nat -> flat (fN (oflux c)) (env_edges v) 1 (V a)) /\ (forall s, env_D v s = 0) /\
  (forall s i, env_H v s i = 2 * make_P (old_ang c) (old_ws c) (fun l j => V l s j) i) /\
  (1 <= fM (oflux c))%nat /\ nth 0 (fst (nth 1 out (nil, nil))) (fun _ => 0) 1%nat <> 0.
Proof.
  assert (HP : forall s i, env_H (demo_env (fun _ => 0) 2) s i = 2 * make_P 1 (fun _ => 1) (fun l j => demo_V l s j) i).
  { intros s i. cbn. unfold make_P, demo_V. cbn [sumn]. destruct (i =? 0)%nat; ring. }
  destruct (C175_first_rhs_light (demo_old 0 0 1 true 0) (demo_env (fun _ => 0) 2) 0 demo_V 1) as (out & E & F); try reflexivity; try (cbn; lra); try (cbn; lia).
  - apply demo_inc. - intros; apply demo_flat. - exact HP.
  - exists (demo_old 0 0 1 true 0), (demo_env (fun _ => 0) 2), 0, demo_V, out. split; [exact E|]. split; [cbn; lra|]. split; [cbn; lra|].
    split; [intros; apply demo_flat|]. split; [reflexivity|]. split; [exact HP|]. split; [cbn; lia|]. rewrite F by (cbn; lia). cbn.
    replace (1 + 1 - 1) with 1 by ring. rewrite sqrt_1. pose proof (sqrt_lt_R0 (2 * 1 + 1) ltac:(lra)). lra.
Qed.
Print Assumptions C175_flat_balance_with_light_refuted.

(** Sphere with a constant opacity: nothing builds VV, so it is the zero it was allocated with, and the row is without removal
    and without the derivative in angle.  [env_inv] is the inverse of the mass matrix. *)
Theorem C175_first_rhs_sphere_no_removal : forall c v t V, fgeom (oflux c) = Sphere -> key (couple c) "none" = Ok 1%Z -> key (sfun c) "constant" = Ok 1%Z ->
  uncollided_on (oflux c) = false -> old_dim c = false -> (forall a s i, env_VV v a s i = 0) ->
  (forall s x i, (s < fN (oflux c))%nat -> (i <= fM (oflux c))%nat ->
     let M := make_mass_sphere (env_tabs v) (env_edges v s) (env_edges v (S s)) in
     dotv (fM (oflux c) + 1) M (dotv (fM (oflux c) + 1) (env_inv v M) x) i = x i) ->
  forall out, old_call repaired c v t V = Ok out ->
  forall s a i, (s < fN (oflux c))%nat -> (a < old_ang c)%nat -> (i <= fM (oflux c))%nat ->
  let n := (fM (oflux c) + 1)%nat in
  let M := make_mass_sphere (env_tabs v) (env_edges v s) (env_edges v (S s)) in
  exists G, make_G_sphere n (env_edges v s) (env_edges v (S s)) (env_D v s) (env_D v (S s)) = Ok G /\
  dotv n M (nth a (fst (nth s out (nil, nil))) (fun _ => 0)) i =
    dotv n G (V a s) i - snd (make_LU (oflux c) (env_st v a s) t (env_edges v) (env_D v) (V a) s (old_mus c a) (fun _ => 0)) i
    + old_mus c a * dotv n (make_L_sphere (env_tabs v) (env_edges v s) (env_edges v (S s))) (V a s) i
    + old_c c * dotv n M (make_P (old_ang c) (old_ws c) (fun l j => V l s j)) i + env_S v a s i / (8 * PI).
Proof.
  intros c v t V Hg Hc Hs Hu Hd HVV Hinv out E s a i Hn Ha Hi. cbv zeta. revert E. unfold old_call. rewrite Hc. cbn [bind].
  change ((1 =? 1)%Z || (1 =? 0)%Z)%bool with true. cbv iota. intro E.
  pose proof (map_result_nth_ok _ _ _ 0%nat (nil, nil) E s) as C. rewrite seq_length in C. specialize (C Hn). rewrite seq_nth in C by auto. cbn [Nat.add] in C.
  revert C. unfold old_cell. rewrite Hc. cbn [bind]. change (1 =? 0)%Z with false. change (1 =? 1)%Z with true. cbv iota.
  unfold old_GL. rewrite Hg. cbv zeta. rewrite (Nat.add_1_r s).
  destruct (make_G_sphere (fM (oflux c) + 1) (env_edges v s) (env_edges v (S s)) (env_D v s) (env_D v (S s))) as [G|]; cbn [bind]; [|discriminate].
  destruct (make_MPRIME (fM (oflux c) + 1) (env_edges v s) (env_edges v (S s)) (env_D v s) (env_D v (S s))) as [M'|]; cbn [bind]; [|discriminate].
  rewrite old_P_repaired by auto. cbn [bind fst snd].
  match goal with |- context [map_result ?f ?q] => destruct (map_result f q) as [rows|] eqn:Er end; cbn [bind]; [|discriminate].
  intros [= C]. rewrite <- C. cbn [fst]. exists G. split; [auto|].
  pose proof (map_result_nth_ok _ _ _ 0%nat (fun _ => 0) Er a) as R. rewrite seq_length in R. specialize (R Ha). rewrite seq_nth in R by auto. cbn [Nat.add] in R.
  revert R. unfold old_LU. cbn [repaired fix_LU bind]. unfold old_single. rewrite Hs. cbn [bind]. change (1 =? 1)%Z with true. cbv iota.
  rewrite Hd, Hu, Hg. cbn [negb]. cbv zeta. rewrite (Nat.add_1_r s). intro R. apply Ok_inj in R. rewrite <- R. rewrite Hinv by auto.
  assert (Z : forall A, dotv (fM (oflux c) + 1) A (env_VV v a s) i = 0) by (intros; unfold dotv; apply sumn_zero; intros; rewrite HVV; ring).
  rewrite Z. change (fun i0 : nat => make_P (old_ang c) (old_ws c) (fun l j : nat => V l s j) i0) with (make_P (old_ang c) (old_ws c) (fun l j : nat => V l s j)).
  field. apply PI_neq0.
Qed.
Print Assumptions C175_first_rhs_sphere_no_removal.

(** the demo slab with the two calls repaired: the flat field of a medium that scatters without loss stays *)
Example ex_C175 : exists out, old_call repaired (demo_old 1 1 0 false 0) (demo_env (fun _ => 0) 0) 0 demo_V = Ok out /\ length out = 3%nat /\
  (forall r, old_call as_written (demo_old 1 1 0 false 0) (demo_env (fun _ => 0) 0) 0 demo_V <> Ok r) /\
  (forall r, old_call repaired (demo_old 1 1 0 true 0) (demo_env (fun _ => 0) 0) 0 demo_V <> Ok r).
Proof.
  destruct (C175_first_rhs_slab (demo_old 1 1 0 false 0) (demo_env (fun _ => 0) 0) 0 demo_V) as (out & E & L & _); try reflexivity; [now left|].
  exists out. split; [exact E|]. split; [exact L|]. split.
  - intros r. apply C175_first_rhs_never_returns; cbn; lia.
  - intros r. apply C175_first_rhs_dimensional; try reflexivity; cbn; lia.
Qed.
