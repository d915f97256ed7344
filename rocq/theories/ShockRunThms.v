(** What is drawn beside the angular flux of the moving Gaussian (C193). *)
From Coquelicot Require Import Coquelicot.
From Verif Require Import Py PyLemmas FuncModel OutProofs BenchModel BenchProofs SedovModel SedovRunModel SteadyModel SteadyThms ShockRunModel.

(** the i-th of 25 equidistant points from the first entry of a list to its last *)
Definition spot (l : list R) (i : nat) : R := nth 0 l 0 + INR i * ((nth (length l - 1) l 0 - nth 0 l 0) / 24).

Lemma nearest06_ok mus : mus <> [] -> exists k, (k < length mus)%nat /\ nearest06 mus = Ok (nth k mus 0) /\
  (forall j, (j < length mus)%nat -> Rabs (nth k mus 0 - 6 / 10) <= Rabs (nth j mus 0 - 6 / 10)) /\
  (forall j, (j < k)%nat -> Rabs (nth k mus 0 - 6 / 10) < Rabs (nth j mus 0 - 6 / 10)).
Proof.
  intros N. assert (L : (1 <= length mus)%nat) by (destruct mus; [congruence|cbn; lia]).
  destruct (rargmin_ok (map (fun mu => Rabs (mu - 6 / 10)) mus)) as (k & E & K & M & F); [rewrite map_length; lia|]. rewrite map_length in K, M.
  assert (A : forall j, (j < length mus)%nat -> nth j (map (fun mu => Rabs (mu - 6 / 10)) mus) 0 = Rabs (nth j mus 0 - 6 / 10)).
  { intros j Hj. rewrite (nth_indep _ 0 (Rabs (0 - 6 / 10))) by (rewrite map_length; lia). apply (map_nth (fun mu => Rabs (mu - 6 / 10))). }
  exists k. split; [auto|]. split; [|split].
  - unfold nearest06. rewrite E. cbn [bind]. unfold getitem. rewrite (nth_error_nth' mus 0 K). reflexivity.
  - intros j Hj. rewrite <- !A by auto. now apply M.
  - intros j Hj. rewrite <- !A by lia. now apply F.
Qed.
Lemma first_ok (l : list R) : l <> [] -> getitem l 0 = Ok (nth 0 l 0) /\ getneg l 1 = Ok (nth (length l - 1) l 0).
Proof.
  intros N. destruct l as [|x l]; [congruence|]. split; [reflexivity|]. unfold getneg, getitem. destruct (Nat.ltb_spec (length (x :: l)) 1) as [H|H]; [cbn in H; lia|].
  rewrite (nth_error_nth' (x :: l) 0) by (cbn [length] in *; lia). reflexivity.
Qed.
Lemma spots l : linspace (nth 0 l 0) (nth (length l - 1) l 0) 25 = tab 25 (spot l).
Proof. rewrite linspace_tab. unfold spot. apply tab_ext. intros i _. replace (INR (25 - 1)) with 24 by (cbn; lra). reflexivity. Qed.

(** After a run with one output time the curves are drawn: at 25 equidistant points, for direction 1 and for the
    direction of the run nearest to 0.6, the first of two equally near ones.  Both start at one at the wall, lie
    between 0 and 1, and vanish exactly ahead of the first particles of their direction. *)
Theorem C193_curves : forall quad t mus l m, quad_ok quad -> 0 < t -> In m mus -> 0 < m <= 1 -> l <> [] -> -5 <= nth 0 l 0 -> -5 <= nth (length l - 1) l 0 ->
  exists mu k p1 p2, shock_benchmark quad t mus (Single l) = Ok (map (spot l) (seq 0 25), p1, p2) /\
    length p1 = 25%nat /\ length p2 = 25%nat /\
    ((k < length mus)%nat /\ mu = nth k mus 0 /\ 0 < mu /\ (forall j, (j < length mus)%nat -> Rabs (mu - 6 / 10) <= Rabs (nth j mus 0 - 6 / 10)) /\
     (forall j, (j < k)%nat -> Rabs (mu - 6 / 10) < Rabs (nth j mus 0 - 6 / 10))) /\
    (nth 0 l 0 = -5 -> nth 0 p1 0 = 1 /\ nth 0 p2 0 = 1) /\
    forall i, (i < 25)%nat ->
      moving_gaussian_shock quad t (spot l i) 1 = Ok (nth i p1 0) /\ moving_gaussian_shock quad t (spot l i) mu = Ok (nth i p2 0) /\
      0 <= nth i p1 0 <= 1 /\ 0 <= nth i p2 0 <= 1 /\ (nth i p1 0 = 0 <-> t <= spot l i + 5) /\ (nth i p2 0 = 0 <-> mu * t <= spot l i + 5).
Proof.
  intros quad t mus l m Hq Ht Hin Hm Hl Ha Hb.
  destruct (nearest06_ok mus) as (k & K & E & Mn & F); [intros ->; destruct Hin|].
  set (mu := nth k mus 0) in *.
  assert (P : 0 < mu).
  { apply In_nth with (d := 0) in Hin as (j & Hj & Ej). specialize (Mn j Hj). rewrite Ej in Mn.
    assert (Rabs (m - 6 / 10) < 6 / 10) by (apply Rabs_def1; lra). assert (Q : Rabs (mu - 6 / 10) < 6 / 10) by lra. apply Rabs_def2 in Q. lra. }
  assert (Sp : forall i, (i < 25)%nat -> -5 <= spot l i).
  { intros i Hi. unfold spot. assert (Z : 0 <= INR i <= 24). { split; [apply pos_INR|]. replace 24 with (INR 24) by (cbn; lra). apply le_INR. lia. } nra. }
  assert (V : forall d x, 0 < d -> -5 <= x -> exists psi, moving_gaussian_shock quad t x d = Ok psi /\ 0 <= psi <= 1 /\ (psi = 0 <-> d * t <= x + 5)).
  { intros d x Hd Hx. apply (C143_boundary quad d t x Hq Hd Ht Hx). }
  set (g := fun x => p1 <- moving_gaussian_shock quad t x 1 ;; p2 <- moving_gaussian_shock quad t x mu ;; Ok (p1, p2)).
  assert (T : exists v, map_result g (tab 25 (spot l)) = Ok v).
  { assert (H : forall q, (forall x, In x q -> -5 <= x) -> exists v, map_result g q = Ok v).
    { induction q as [|x q IH]; intros Hx; [exists []; reflexivity|]. destruct IH as [v Ev]; [intros; apply Hx; now right|].
      destruct (V 1 x ltac:(lra) ltac:(apply Hx; now left)) as (a & Ea & _). destruct (V mu x P ltac:(apply Hx; now left)) as (b & Eb & _).
      exists ((a, b) :: v). cbn [map_result]. unfold g at 1. rewrite Ea. cbn [bind]. rewrite Eb. cbn [bind]. rewrite Ev. reflexivity. }
    apply H. intros x Hx. unfold tab in Hx. apply in_map_iff in Hx as (i & <- & Hi). apply in_seq in Hi. apply Sp. lia. }
  destruct T as [v Ev]. exists mu, k, (map fst v), (map snd v).
  assert (Lv : length v = 25%nat) by (rewrite (map_result_len _ _ _ Ev); apply tab_length).
  assert (W : forall i, (i < 25)%nat -> moving_gaussian_shock quad t (spot l i) 1 = Ok (nth i (map fst v) 0) /\ moving_gaussian_shock quad t (spot l i) mu = Ok (nth i (map snd v) 0)).
  { intros i Hi. pose proof (map_result_nth_ok g _ _ 0 (0, 0) Ev i ltac:(rewrite tab_length; auto)) as G. rewrite nth_tab in G by auto.
    pose proof (map_nth fst v (0, 0) i) as N1. pose proof (map_nth snd v (0, 0) i) as N2. cbn [fst snd] in N1, N2. rewrite N1, N2. unfold g in G.
    destruct (moving_gaussian_shock quad t (spot l i) 1) as [a|]; [|discriminate]. cbn [bind] in G.
    destruct (moving_gaussian_shock quad t (spot l i) mu) as [b|]; [|discriminate]. cbn [bind] in G. injection G as G. rewrite <- G. split; reflexivity. }
  split.
  { unfold shock_benchmark. rewrite E. cbn [bind]. destruct (first_ok l Hl) as [-> ->]. cbn [bind]. rewrite spots. fold g. rewrite Ev. reflexivity. }
  split; [now rewrite map_length|]. split; [now rewrite map_length|]. split; [repeat split; auto|]. split.
  { intros H0. destruct (W 0%nat ltac:(lia)) as [W1 W2]. assert (S0 : spot l 0 = -5) by (unfold spot; cbn [INR]; lra). rewrite S0 in W1, W2.
    destruct (C143_boundary quad 1 t (-5) Hq ltac:(lra) Ht ltac:(lra)) as [B1 _]. destruct (C143_boundary quad mu t (-5) Hq P Ht ltac:(lra)) as [B2 _].
    rewrite B1 in W1. rewrite B2 in W2. injection W1 as W1. injection W2 as W2. split; symmetry; assumption. }
  intros i Hi. destruct (W i Hi) as [W1 W2]. destruct (V 1 (spot l i) ltac:(lra) (Sp i Hi)) as (a & Ea & A1 & A2). destruct (V mu (spot l i) P (Sp i Hi)) as (b & Eb & B1 & B2).
  rewrite Ea in W1. rewrite Eb in W2. injection W1 as W1. injection W2 as W2. rewrite Ea, Eb, <- W1, <- W2. rewrite Rmult_1_l in A2.
  split; [reflexivity|]. split; [reflexivity|]. split; [exact A1|]. split; [exact B1|]. split; [exact A2|exact B2].
Qed.
Print Assumptions C193_curves.

(** After a run with several output times nothing is drawn: the positions then form a table, and every table is an error. *)
Theorem C193_table : forall quad t mus rows r, shock_benchmark quad t mus (Table rows) <> Ok r.
Proof.
  intros quad t mus rows r. unfold shock_benchmark. destruct (nearest06 mus); [|discriminate]. cbn [bind].
  destruct (getitem rows 0); [|discriminate]. cbn [bind]. destruct (getneg rows 1); discriminate.
Qed.
Print Assumptions C193_table.

(** No run serves both comparisons of this file: the one with the boundary-driven shock needs the table. *)
Theorem C193_not_both : forall quad t mus xs r erf v0 ts tfinal dirs phi p,
  shock_benchmark quad t mus xs = Ok r -> sedov_benchmark erf v0 ts tfinal dirs xs phi = Ok p -> False.
Proof.
  intros quad t mus xs r erf v0 ts tfinal dirs phi p A B. destruct xs as [l|rows]; [|exact (C193_table _ _ _ _ _ A)].
  unfold sedov_benchmark in B. destruct (rargmin _); discriminate.
Qed.
Print Assumptions C193_not_both.

(** With the two Gauss-Lobatto directions -1 and 1 both curves are the same. *)
Theorem C193_two_curves_refuted : exists quad t mus l xs p1 p2, quad_ok quad /\ 0 < t /\ shock_benchmark quad t mus (Single l) = Ok (xs, p1, p2) /\ p1 = p2 /\ nth 0 p1 0 = 1.
Proof.
  set (q := fun (f : R -> R) a b => RInt f a b : R).
  destruct (C193_curves q 2 [-1; 1] [-5; 5] 1 quad_contract_holds ltac:(lra) ltac:(cbn; auto) ltac:(lra) ltac:(discriminate) ltac:(cbn; lra) ltac:(cbn; lra))
    as (mu & k & p1 & p2 & E & L1 & L2 & (K & Em & Pm & Mn & _) & W & V).
  exists q, 2, [-1; 1], [-5; 5], (map (spot [-5; 5]) (seq 0 25)), p1, p2. split; [exact quad_contract_holds|]. split; [lra|]. split; [exact E|]. split.
  - assert (mu = 1). { destruct k as [|[|k]]; cbn in Em; [lra|auto|cbn in K; lia]. } subst mu. clear E W Mn.
    apply (nth_ext p1 p2 0 0); [congruence|]. intros i Hi. rewrite L1 in Hi. destruct (V i Hi) as (A & B & _). rewrite <- H in A. rewrite B in A. now injection A.
  - apply W. reflexivity.
Qed.
Print Assumptions C193_two_curves_refuted.

Example C193_example : let q := fun f a b => RInt f a b in exists xs p1 p2,
  shock_benchmark q 2 [-1; -1/2; 1/2; 1] (Single [-5; 0; 7]) = Ok (xs, p1, p2) /\ nth 4 xs 0 = -3 /\ nth 0 p1 0 = 1 /\ nth 4 p1 0 = 0 /\ nth 2 p2 0 = 0 /\ nth 2 p1 0 <> 0.
Proof.
  cbv zeta. destruct (C193_curves _ 2 [-1; -1/2; 1/2; 1] [-5; 0; 7] 1 quad_contract_holds ltac:(lra) ltac:(cbn; auto) ltac:(lra) ltac:(discriminate) ltac:(cbn; lra) ltac:(cbn; lra))
    as (mu & k & p1 & p2 & E & _ & _ & (K & Em & Pm & Mn & _) & W & V).
  assert (mu = 1/2).
  { destruct k as [|[|[|[|k]]]]; cbn in Em; try lra; [|cbn in K; lia]. exfalso. specialize (Mn 2%nat ltac:(cbn; lia)). cbn in Mn. rewrite Em in Mn.
    rewrite Rabs_pos_eq in Mn by lra. rewrite Rabs_left in Mn by lra. lra. }
  eexists _, p1, p2. split; [exact E|]. split; [cbn; unfold spot; cbn; lra|]. split; [apply W; reflexivity|].
  destruct (V 4%nat ltac:(lia)) as (_ & _ & _ & _ & A & _). destruct (V 2%nat ltac:(lia)) as (_ & _ & _ & _ & C & B).
  assert (spot [-5; 0; 7] 4 = -3) by (unfold spot; cbn; lra). assert (spot [-5; 0; 7] 2 = -4) by (unfold spot; cbn; lra).
  split; [apply A; lra|]. split; [apply B; lra|]. intros Z. apply C in Z. lra.
Qed.
