(** What run_all leaves behind (C194). *)
From Coq Require Import String.
From Verif Require Import Py PyLemmas ConfigModel ConfigData StoreModel DriverModel DriverThms RunAllModel.
Open Scope string_scope.
Open Scope R_scope.

(** the variant run in place v: with the uncollided solution on a moving and a static mesh, then without *)
Definition uncol (v : nat) : bool := (v <? 2)%nat.
Definition moves (v : nat) : bool := Nat.even v.

Lemma square_run pr solve par mesh c u m rest fields d calls r f d' k' :
  load "square_IC" par mesh = Ok c -> (1 <= c_N_runs c)%Z -> (1 <= length (c_N_angles c))%nat ->
  square_runs pr solve par mesh ((u, m) :: rest) fields d calls = (r, f, d', k') ->
  let L := length (c_N_angles c) in let n := Z.to_nat (c_N_runs c) in
  (exists e, r = Err e /\ f = fields) \/
  exists (out : nat -> nat -> outcome) f1 d1,
    (forall q j, (q < n)%nat -> (j < L)%nat -> called solve c u m (calls + (q * L + j)) j (out q j)) /\
    f1 = Some {| f_results := Some (out (n - 1)%nat (L - 1)%nat); f_x0 := c_x0 c; f_tfinal := c_tfinal c; f_v0 := c_v0 c; f_t0 := c_t0 c; f_eval_array := c_eval_array c |} /\
    square_runs pr solve par mesh rest f1 d1 (calls + n * L) = (r, f, d', k').
Proof.
  intros Hl Hn HL H L n. cbn [square_runs] in H.
  destruct (run_problem pr solve "square_IC" par mesh u m false fields d calls) as [[r1 f1] s1] eqn:E.
  destruct (C66_run_object pr solve "square_IC" par mesh u m fields d calls r1 f1 s1) as (_ & G & B).
  destruct r1 as [[]|e].
  - right. destruct (G E) as (c' & st & o & Hl' & M & -> & Hr & Hf). rewrite Hl in Hl'. injection Hl' as <-.
    destruct (C65_finest_run_and_mean_time pr solve "square_IC" par mesh c d calls u m st Hl Hn HL M) as (out & O1 & O2 & O3 & _). fold L n in O1, O2, O3.
    exists out, f1, (m_disk st). split; [exact O1|]. split; [rewrite Hf; rewrite Hr in O3; injection O3 as ->; reflexivity|]. rewrite <- O2. exact H.
  - left. exists e. assert (F : f1 = fields) by (apply B; [exact E|discriminate]). destruct s1; injection H as <- <- _ _; auto.
Qed.

(** When run_all ends normally it has solved the four variants one after another, every level of every repetition, and
    the run object holds the finest level of the last variant alone: no uncollided solution, static mesh. *)
Theorem C194_run_all : forall pr solve par mesh c fields d calls f d' k',
  load "square_IC" par mesh = Ok c -> (1 <= c_N_runs c)%Z -> (1 <= length (c_N_angles c))%nat ->
  run_all pr solve par mesh fields d calls = (Ok tt, f, d', k') ->
  let L := length (c_N_angles c) in let n := Z.to_nat (c_N_runs c) in
  exists out : nat -> nat -> nat -> outcome,
    (forall v q j, (v < 4)%nat -> (q < n)%nat -> (j < L)%nat -> called solve c (uncol v) (moves v) (calls + (v * (n * L) + (q * L + j))) j (out v q j)) /\
    k' = (calls + 4 * (n * L))%nat /\
    exists rf, f = Some rf /\ f_results rf = Some (out 3%nat (n - 1)%nat (L - 1)%nat) /\ f_x0 rf = c_x0 c /\ f_tfinal rf = c_tfinal c.
Proof.
  intros pr solve par mesh c fields d calls f d' k' Hl Hn HL H L n. unfold run_all in H.
  destruct (square_run _ _ _ _ c _ _ _ _ _ _ _ _ _ _ Hl Hn HL H) as [(e & B & _)|(o1 & f1 & d1 & A1 & _ & H1)]; [discriminate|]. fold L n in A1, H1. clear H.
  destruct (square_run _ _ _ _ c _ _ _ _ _ _ _ _ _ _ Hl Hn HL H1) as [(e & B & _)|(o2 & f2 & d2 & A2 & _ & H2)]; [discriminate|]. fold L n in A2, H2. clear H1.
  destruct (square_run _ _ _ _ c _ _ _ _ _ _ _ _ _ _ Hl Hn HL H2) as [(e & B & _)|(o3 & f3 & d3 & A3 & _ & H3)]; [discriminate|]. fold L n in A3, H3. clear H2.
  destruct (square_run _ _ _ _ c _ _ _ _ _ _ _ _ _ _ Hl Hn HL H3) as [(e & B & _)|(o4 & f4 & d4 & A4 & F4 & H4)]; [discriminate|]. fold L n in A4, F4, H4. clear H3.
  cbn [square_runs] in H4. injection H4 as F _ K.
  exists (fun v => match v with 0%nat => o1 | 1%nat => o2 | 2%nat => o3 | _ => o4 end). split; [|split].
  - intros v q j Hv Hq Hj. destruct v as [|[|[|[|v]]]]; [| | | |lia]; unfold uncol, moves; cbn [Nat.ltb Nat.leb Nat.even].
    + replace (calls + (0 * (n * L) + (q * L + j)))%nat with (calls + (q * L + j))%nat by lia. now apply A1.
    + replace (calls + (1 * (n * L) + (q * L + j)))%nat with (calls + n * L + (q * L + j))%nat by lia. now apply A2.
    + replace (calls + (2 * (n * L) + (q * L + j)))%nat with (calls + n * L + n * L + (q * L + j))%nat by lia. now apply A3.
    + replace (calls + (3 * (n * L) + (q * L + j)))%nat with (calls + n * L + n * L + n * L + (q * L + j))%nat by lia. now apply A4.
  - lia.
  - eexists. split; [rewrite <- F; exact F4|]. cbn. auto.
Qed.
Print Assumptions C194_run_all.

(** When a variant raises, the following ones are not run, and the run object keeps what it had before the first variant
    or holds the finest level of one that ended. *)
Theorem C194_failure : forall pr solve par mesh c fields d calls e f d' k',
  load "square_IC" par mesh = Ok c -> (1 <= c_N_runs c)%Z -> (1 <= length (c_N_angles c))%nat ->
  run_all pr solve par mesh fields d calls = (Err e, f, d', k') ->
  let L := length (c_N_angles c) in let n := Z.to_nat (c_N_runs c) in
  f = fields \/
  exists v o rf, (v < 3)%nat /\ called solve c (uncol v) (moves v) (calls + (v * (n * L) + ((n - 1) * L + (L - 1)))) (L - 1) o /\ f = Some rf /\ f_results rf = Some o.
Proof.
  intros pr solve par mesh c fields d calls e f d' k' Hl Hn HL H L n. unfold run_all in H.
  assert (Pn : (n - 1 < n)%nat) by (unfold n; lia). assert (PL : (L - 1 < L)%nat) by (unfold L; lia).
  destruct (square_run _ _ _ _ c _ _ _ _ _ _ _ _ _ _ Hl Hn HL H) as [(x & _ & B)|(o1 & f1 & d1 & A1 & F1 & H1)]; [now left|]. fold L n in A1, F1, H1. clear H.
  destruct (square_run _ _ _ _ c _ _ _ _ _ _ _ _ _ _ Hl Hn HL H1) as [(x & _ & B)|(o2 & f2 & d2 & A2 & F2 & H2)].
  { right. exists 0%nat, (o1 (n - 1) (L - 1))%nat. eexists. split; [lia|]. split; [|split; [rewrite B; exact F1|reflexivity]].
    replace (calls + (0 * (n * L) + ((n - 1) * L + (L - 1))))%nat with (calls + ((n - 1) * L + (L - 1)))%nat by lia. now apply A1. }
  fold L n in A2, F2, H2. clear H1.
  destruct (square_run _ _ _ _ c _ _ _ _ _ _ _ _ _ _ Hl Hn HL H2) as [(x & _ & B)|(o3 & f3 & d3 & A3 & F3 & H3)].
  { right. exists 1%nat, (o2 (n - 1) (L - 1))%nat. eexists. split; [lia|]. split; [|split; [rewrite B; exact F2|reflexivity]].
    replace (calls + (1 * (n * L) + ((n - 1) * L + (L - 1))))%nat with (calls + n * L + ((n - 1) * L + (L - 1)))%nat by lia. now apply A2. }
  fold L n in A3, F3, H3. clear H2.
  destruct (square_run _ _ _ _ c _ _ _ _ _ _ _ _ _ _ Hl Hn HL H3) as [(x & _ & B)|(o4 & f4 & d4 & _ & _ & H4)]; [|discriminate].
  right. exists 2%nat, (o3 (n - 1) (L - 1))%nat. eexists. split; [lia|]. split; [|split; [rewrite B; exact F3|reflexivity]].
  replace (calls + (2 * (n * L) + ((n - 1) * L + (L - 1))))%nat with (calls + n * L + n * L + ((n - 1) * L + (L - 1)))%nat by lia. now apply A3.
Qed.
Print Assumptions C194_failure.

Example C194_example : match run_all toy_print toy_solve no_saving yaml_mesh_parameters None toy_disk 0 with
  | (r, Some f, _, k) => r = Ok tt /\ f_results f = Some (toy_outcome 7) /\ k = 8%nat
  | _ => False
  end.
Proof. vm_compute. auto. Qed.
(** a solver that fails on its sixth call: the second variant's results stay *)
Example C194_example_failure : match run_all toy_print (fun k c a => if (k =? 5)%nat then Err NaN else toy_solve k c a) no_saving yaml_mesh_parameters None toy_disk 0 with
  | (r, Some f, _, k) => r = Err NaN /\ f_results f = Some (toy_outcome 3)
  | _ => False
  end.
Proof. vm_compute. auto. Qed.
