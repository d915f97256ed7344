(** Steps of any length of coercive implicit methods exist and are unique for affine dissipative right-hand sides. *)
From Coquelicot Require Import Coquelicot.
From Coq Require Import FunctionalExtensionality.
From Verif Require Import Py PyLemmas Calc DGModel PosDef StabProofs TimeModel TimeProofs.
Open Scope R_scope.

(** sums over lists *)
Fixpoint lsum {I : Type} (l : list I) (f : I -> R) : R := match l with [] => 0 | p :: r => f p + lsum r f end.
Section L.
Context {I : Type}.
Lemma lsum_app (l r : list I) f : lsum (l ++ r) f = lsum l f + lsum r f.
Proof. induction l as [|p l IH]; cbn [lsum app]; [ring|]. rewrite IH. ring. Qed.
Lemma lsum_ext (l : list I) f g : (forall p, In p l -> f p = g p) -> lsum l f = lsum l g.
Proof. induction l as [|p l IH]; intros H; cbn [lsum]; [auto|]. rewrite (H p), IH; auto; [intros; apply H; now right|now left]. Qed.
Lemma lsum_plus (l : list I) f g : lsum l (fun p => f p + g p) = lsum l f + lsum l g.
Proof. induction l as [|p l IH]; cbn [lsum]; [ring|]. rewrite IH. ring. Qed.
Lemma lsum_scal (l : list I) k f : lsum l (fun p => k * f p) = k * lsum l f.
Proof. induction l as [|p l IH]; cbn [lsum]; [ring|]. rewrite IH. ring. Qed.
Lemma lsum_nonneg (l : list I) f : (forall p, In p l -> 0 <= f p) -> 0 <= lsum l f.
Proof. induction l as [|p l IH]; intros H; cbn [lsum]; [lra|]. pose proof (H p (or_introl eq_refl)). assert (0 <= lsum l f) by (apply IH; intros; apply H; now right). lra. Qed.
Lemma lsum_pos (l : list I) f p : (forall p, In p l -> 0 <= f p) -> In p l -> 0 < f p -> 0 < lsum l f.
Proof.
  induction l as [|q l IH]; intros H Hin P; [destruct Hin|]. cbn [lsum]. destruct Hin as [->|Hp].
  - assert (0 <= lsum l f) by (apply lsum_nonneg; intros; apply H; now right). lra.
  - assert (0 < lsum l f) by (apply IH; auto; intros; apply H; now right). pose proof (H q (or_introl eq_refl)). lra.
Qed.
Lemma lsum_nth (d : I) l f : lsum l f = sumn (length l) (fun k => f (nth k l d)).
Proof. induction l as [|p l IH]; cbn [lsum length]; [auto|]. rewrite sumn_S_l. cbn [nth]. now rewrite IH. Qed.
Lemma lsum_sumn (l : list I) n f : lsum l (fun p => sumn n (fun i => f i p)) = sumn n (fun i => lsum l (f i)).
Proof. induction n as [|n IH]; cbn [sumn]; [induction l; cbn [lsum]; [auto|rewrite IHl; ring]|]. rewrite lsum_plus, IH. reflexivity. Qed.
End L.
Lemma lsum_map {I J} (g : I -> J) l f : lsum (map g l) f = lsum l (fun p => f (g p)).
Proof. induction l as [|p l IH]; cbn [lsum map]; [auto|]. now rewrite IH. Qed.
Lemma lsum_prod {I J} (l : list I) (r : list J) f : lsum (list_prod l r) f = lsum l (fun p => lsum r (fun q => f (p, q))).
Proof. induction l as [|p l IH]; cbn [lsum list_prod]; [auto|]. rewrite lsum_app, lsum_map, IH. reflexivity. Qed.
Lemma lsum_seq n f : lsum (seq 0 n) f = sumn n f.
Proof. induction n as [|n IH]; [auto|]. rewrite seq_S, lsum_app, IH. cbn. ring. Qed.
Lemma NoDup_prod {I J} (l : list I) (r : list J) : NoDup l -> NoDup r -> NoDup (list_prod l r).
Proof.
  intros L Hr. induction L as [|p l N L IH]; cbn [list_prod]; [constructor|].
  assert (D : forall A B : list (I * J), NoDup A -> NoDup B -> (forall x, In x A -> ~ In x B) -> NoDup (A ++ B)).
  { intros A B HA HB H. induction HA as [|x A nx HA IA]; cbn; [auto|]. constructor.
    - rewrite in_app_iff. intros [X|X]; [auto|]. apply (H x); auto. now left.
    - apply IA. intros; apply H; now right. }
  apply D; auto.
  - apply FinFun.Injective_map_NoDup; auto. intros x y E. congruence.
  - intros [a b] Hab. apply in_map_iff in Hab. destruct Hab as (z & E & Hz). injection E as <- <-. rewrite in_prod_iff. tauto.
Qed.

Section Solve.
Context {I : Type}.
Variable d0 : I.
Variable eqd : forall p q : I, {p = q} + {p <> q}.
Variable l : list I.
Hypothesis ND : NoDup l.
Definition supported (x : I -> R) : Prop := forall p, ~ In p l -> x p = 0.
Variable w : I -> R.
Hypothesis Hw : forall p, In p l -> 0 < w p.
Variable Op : (I -> R) -> I -> R.
Hypothesis Lin : forall x z k p, In p l -> Op (fun q => x q + k * z q) p = Op x p + k * Op z p.
Hypothesis Pos : forall x, supported x -> (exists p, In p l /\ x p <> 0) -> 0 < lsum l (fun p => w p * (x p * Op x p)).
Let u (q p : I) : R := if eqd p q then 1 else 0.
Let e (k : nat) : I := nth k l d0.
Let X (n : nat) (v : nat -> R) : I -> R := fun p => sumn n (fun j => v j * u (e j) p).
Lemma Op_zero p : In p l -> Op (fun _ => 0) p = 0.
Proof.
  intros Hp. pose proof (Lin (fun _ => 0) (fun _ => 0) 1 p Hp) as H. cbv beta in H.
  replace (fun _ : I => 0 + 1 * 0) with (fun _ : I => 0) in H by (apply functional_extensionality; intro; ring). lra.
Qed.
Lemma Op_X n v p : In p l -> Op (X n v) p = sumn n (fun j => v j * Op (u (e j)) p).
Proof.
  intros Hp. induction n as [|n IH]; unfold X; cbn [sumn].
  - now apply Op_zero.
  - etransitivity; [exact (Lin (X n v) (u (e n)) (v n) p Hp)|]. now rewrite IH.
Qed.
Lemma X_at v k : (k < length l)%nat -> X (length l) v (e k) = v k.
Proof.
  intros Hk. unfold X. rewrite (sumn_single _ _ k); auto.
  - unfold u. destruct (eqd (e k) (e k)); [ring|congruence].
  - intros j Hj N. unfold u. destruct (eqd (e k) (e j)) as [E|]; [|ring]. exfalso. apply N.
    apply (proj1 (NoDup_nth l d0) ND); auto.
Qed.
Lemma X_out v : supported (X (length l) v).
Proof.
  intros p Hp. unfold X. apply sumn_zero. intros j Hj. unfold u. destruct (eqd p (e j)) as [E|]; [|ring]. exfalso. apply Hp. rewrite E. now apply nth_In.
Qed.
Theorem list_solve : forall y : I -> R, exists x, supported x /\ forall p, In p l -> Op x p = y p.
Proof.
  intros y. set (n := length l).
  pose (M := fun i j => w (e i) * Op (u (e j)) (e i)).
  assert (Ie : forall i, (i < n)%nat -> In (e i) l) by (intros; now apply nth_In).
  assert (DM : forall v i, (i < n)%nat -> dotv n M v i = w (e i) * Op (X n v) (e i)).
  { intros v i Hi. rewrite Op_X by auto. unfold dotv, M. rewrite <- sumn_scal. apply sumn_ext. intros; ring. }
  assert (P : pdef n M).
  { intros v (i & Hi & Hv). unfold quad.
    rewrite (sumn_ext n _ (fun i => w (e i) * (X n v (e i) * Op (X n v) (e i)))).
    - eapply Rlt_le_trans; [|right; exact (lsum_nth d0 l (fun p => w p * (X n v p * Op (X n v) p)))]. apply Pos; [apply X_out|]. exists (e i). split; auto. unfold n. rewrite X_at; auto.
    - intros j Hj. rewrite DM by auto. unfold n at 2. rewrite X_at by auto. ring. }
  exists (X n (elim n M (fun i => w (e i) * y (e i)))). split; [apply X_out|].
  intros p Hp. destruct (In_nth l p d0 Hp) as (k & Hk & E). fold (e k) in E. subst p.
  pose proof (elim_solves n M (fun i => w (e i) * y (e i)) k P Hk) as Q. rewrite DM in Q by auto. specialize (Hw (e k) Hp). nra.
Qed.
End Solve.

(** methods with an invertible matrix whose inverse is positive definite after scaling of the rows *)
Definition coercive (T : tableau) : Prop := exists (B : nat -> nat -> R) (d : nat -> R),
  (forall i k, (i < rs T)%nat -> (k < rs T)%nat -> sumn (rs T) (fun j => rA T i j * B j k) = (if (i =? k)%nat then 1 else 0)) /\
  (forall i k, (i < rs T)%nat -> (k < rs T)%nat -> sumn (rs T) (fun j => B i j * rA T j k) = (if (i =? k)%nat then 1 else 0)) /\
  (forall i, (i < rs T)%nat -> 0 < d i) /\
  forall v : nat -> R, (exists i, (i < rs T)%nat /\ v i <> 0) -> 0 < sumn (rs T) (fun i => sumn (rs T) (fun j => d i * B i j * (v i * v j))).

Section Step.
Context {I : Type}.
Variable d0 : I.
Variable eqd : forall p q : I, {p = q} + {p <> q}.
Variable l : list I.
Hypothesis ND : NoDup l.
Variable w : I -> R.
Hypothesis Hw : forall p, In p l -> 0 < w p.
Variable F : R -> (I -> R) -> I -> R.
Variables t0 t1 : R.
Hypothesis HO : forall t y p, ~ In p l -> F t y p = 0.
(** affine in the state *)
Hypothesis HA : forall t x z k p, t0 <= t <= t1 -> In p l -> F t (fun q => x q + k * z q) p = F t x p + k * (F t z p - F t (fun _ => 0) p).
(** dissipative *)
Hypothesis HD : forall t y z, t0 <= t <= t1 -> lsum l (fun p => w p * ((y p - z p) * (F t y p - F t z p))) <= 0.
Lemma pair_eqd : forall p q : nat * I, {p = q} + {p <> q}.
Proof. decide equality. apply Nat.eq_dec. Qed.
Lemma sum_delta n k (f : nat -> R) : (k < n)%nat -> sumn n (fun j => (if (k =? j)%nat then 1 else 0) * f j) = f k.
Proof.
  intros Hk. rewrite (sumn_single n _ k); auto; [rewrite Nat.eqb_refl; ring|].
  intros j Hj N. destruct (Nat.eqb_spec k j); [congruence|ring].
Qed.
Lemma mat_mat n (A B : nat -> nat -> R) (f : nat -> R) i : sumn n (fun j => A i j * sumn n (fun k => B j k * f k)) = sumn n (fun k => sumn n (fun j => A i j * B j k) * f k).
Proof.
  rewrite (sumn_ext n _ (fun j => sumn n (fun k => A i j * B j k * f k))) by (intros; rewrite <- sumn_scal; apply sumn_ext; intros; ring).
  rewrite sumn_swap. apply sumn_ext. intros k Hk. rewrite <- sumn_scal_r. reflexivity.
Qed.
Variable T : tableau.
Hypothesis HT : forall i, (i < rs T)%nat -> 0 <= rc T i <= 1.
Hypothesis HC : coercive T.
Theorem coercive_step : forall t h y, t0 <= t -> 0 <= h -> t + h <= t1 -> supported l y ->
  (exists y', supported l y' /\ rk_step T F t h y y') /\ forall y' y'', rk_step T F t h y y' -> rk_step T F t h y y'' -> forall p, y' p = y'' p.
Proof.
  intros t h y Ht Hh Ht1 Hy. destruct HC as (B & d & AB & BA & Pd & PB). set (n := rs T) in *.
  assert (Tm : forall i, (i < n)%nat -> t0 <= t + rc T i * h <= t1).
  { intros i Hi. specialize (HT i Hi). assert (0 <= rc T i * h <= 1 * h) by (split; [apply Rmult_le_pos; lra|apply Rmult_le_compat_r; lra]). lra. }
  assert (Form : forall Y : nat -> I -> R, lsum (list_prod (seq 0 n) l) (fun r => d (fst r) * w (snd r) * (Y (fst r) (snd r) * sumn n (fun j => B (fst r) j * Y j (snd r))))
     = lsum l (fun p => w p * sumn n (fun i => sumn n (fun j => d i * B i j * (Y i p * Y j p))))).
  { intros Y. rewrite lsum_prod, lsum_seq. cbn [fst snd]. rewrite <- lsum_sumn. apply lsum_ext. intros p Hp. rewrite <- sumn_scal. apply sumn_ext. intros i Hi.
    rewrite (sumn_ext n (fun j => d i * B i j * (Y i p * Y j p)) (fun j => d i * Y i p * (B i j * Y j p))) by (intros; ring). rewrite sumn_scal. ring. }
  assert (FormPos : forall Y : nat -> I -> R, (exists i p, (i < n)%nat /\ In p l /\ Y i p <> 0) ->
     0 < lsum l (fun p => w p * sumn n (fun i => sumn n (fun j => d i * B i j * (Y i p * Y j p))))).
  { intros Y (i & p & Hi & Hp & N).
    assert (G : forall q, (exists i, (i < n)%nat /\ Y i q <> 0) -> 0 < sumn n (fun i => sumn n (fun j => d i * B i j * (Y i q * Y j q)))) by (intros q Hq; now apply (PB (fun i => Y i q))).
    apply (lsum_pos l _ p); auto.
    - intros q Hq. apply Rmult_le_pos; [left; auto|].
      destruct (Classical_Prop.classic (exists i, (i < n)%nat /\ Y i q <> 0)) as [X|X]; [left; auto|right].
      symmetry. apply sumn_zero. intros i' Hi'. apply sumn_zero. intros j Hj. destruct (Req_dec (Y i' q) 0) as [E|E]; [rewrite E; ring|exfalso; eauto].
    - apply Rmult_lt_0_compat; auto. apply G. eauto. }
  split.
  - destruct (list_solve (0%nat, d0) pair_eqd (list_prod (seq 0 n) l) (NoDup_prod _ _ (seq_NoDup n 0) ND) (fun r => d (fst r) * w (snd r)))
      with (Op := fun (Y : nat * I -> R) (r : nat * I) => sumn n (fun j => B (fst r) j * Y (j, snd r)) - h * (F (t + rc T (fst r) * h) (fun q => Y (fst r, q)) (snd r) - F (t + rc T (fst r) * h) (fun _ => 0) (snd r)))
           (y := fun r => sumn n (fun j => B (fst r) j * y (snd r)) + h * F (t + rc T (fst r) * h) (fun _ => 0) (snd r)) as (Y & SY & HY).
    + intros [i p] Hr. apply in_prod_iff in Hr. destruct Hr as [Hi Hp]. apply in_seq in Hi. cbn [fst snd]. apply Rmult_lt_0_compat; auto. apply Pd. lia.
    + intros x z k [i p] Hr. apply in_prod_iff in Hr. destruct Hr as [Hi Hp]. apply in_seq in Hi. cbn [fst snd].
      rewrite (HA _ (fun q => x (i, q)) (fun q => z (i, q)) k p) by (auto; apply Tm; lia).
      rewrite (sumn_ext n (fun j => B i j * (x (j, p) + k * z (j, p))) (fun j => B i j * x (j, p) + k * (B i j * z (j, p)))) by (intros; ring).
      rewrite sumn_plus, sumn_scal. ring.
    + intros x Sx ([i p] & Hr & N). apply in_prod_iff in Hr. destruct Hr as [Hi Hp]. apply in_seq in Hi.
      pose proof (Form (fun i q => x (i, q))) as E1. pose proof (FormPos (fun i q => x (i, q)) (ex_intro _ i (ex_intro _ p (conj (proj2 Hi) (conj Hp N))))) as E2.
      cbv beta in E1, E2. rewrite <- E1 in E2. clear E1.
      assert (E3 : 0 <= - h * lsum (list_prod (seq 0 n) l) (fun r => d (fst r) * w (snd r) * (x r * (F (t + rc T (fst r) * h) (fun q => x (fst r, q)) (snd r) - F (t + rc T (fst r) * h) (fun _ => 0) (snd r))))).
      { rewrite lsum_prod, lsum_seq. cbn [fst snd]. rewrite Ropp_mult_distr_l_reverse, Ropp_mult_distr_r. apply Rmult_le_pos; auto.
        match goal with |- 0 <= - ?z => enough (z <= 0) by lra end.
        apply (Rle_trans _ (sumn n (fun _ => 0))); [|rewrite sumn_zero; auto; lra]. apply sumn_le. intros i' Hi'.
        pose proof (HD (t + rc T i' * h) (fun q => x (i', q)) (fun _ => 0) (Tm i' Hi')) as Q.
        rewrite (lsum_ext l _ (fun p => d i' * (w p * ((x (i', p) - 0) * (F (t + rc T i' * h) (fun q => x (i', q)) p - F (t + rc T i' * h) (fun _ => 0) p))))) by (intros; ring).
        rewrite lsum_scal. pose proof (Pd i' Hi'). cbv beta in Q. nra. }
      rewrite <- lsum_scal in E3. pose proof (Rplus_lt_le_0_compat _ _ E2 E3) as E4. rewrite <- lsum_plus in E4.
      eapply Rlt_le_trans; [exact E4|]. right. apply lsum_ext. intros [i' p'] _. cbn [fst snd]. ring.
    + pose (k := fun i p => F (t + rc T i * h) (fun q => Y (i, q)) p).
      assert (Yst : forall i p, (i < n)%nat -> In p l -> Y (i, p) = y p + h * sumn n (fun j => rA T i j * k j p)).
      { intros i p Hi Hp.
        assert (Q : forall j, (j < n)%nat -> sumn n (fun m => B j m * (Y (m, p) - y p)) = h * k j p).
        { intros j Hj. pose proof (HY (j, p) (proj2 (in_prod_iff _ _ j p) (conj (proj2 (in_seq n 0 j) ltac:(lia)) Hp))) as E. cbn [fst snd] in E.
          rewrite (sumn_ext n _ (fun m => B j m * Y (m, p) - B j m * y p)) by (intros; ring). rewrite sumn_minus. unfold k. lra. }
        assert (Q2 : sumn n (fun j => rA T i j * sumn n (fun m => B j m * (Y (m, p) - y p))) = Y (i, p) - y p).
        { rewrite (mat_mat n (rA T) B (fun m => Y (m, p) - y p) i). rewrite (sumn_ext n _ (fun m => (if (i =? m)%nat then 1 else 0) * (Y (m, p) - y p))) by (intros; now rewrite AB).
          now rewrite sum_delta. }
        rewrite (sumn_ext n (fun j => rA T i j * sumn n (fun m => B j m * (Y (m, p) - y p))) (fun j => h * (rA T i j * k j p))) in Q2 by (intros j Hj; rewrite (Q j Hj); ring).
        rewrite sumn_scal in Q2. lra. }
      exists (fun p => y p + h * sumn n (fun i => rb T i * k i p)). split.
      * intros p Hp. rewrite Hy by auto. rewrite sumn_zero; [ring|]. intros i Hi. unfold k. rewrite HO by auto. ring.
      * exists k. split; [|intros p; reflexivity]. intros i p Hi. unfold k at 1. f_equal. apply functional_extensionality. intros q. unfold stage. fold n.
        destruct (in_dec eqd q l) as [Hq|Hq]; [now apply Yst|].
        rewrite SY by (rewrite in_prod_iff; tauto). rewrite Hy by auto. rewrite sumn_zero; [ring|]. intros j Hj. unfold k. rewrite HO by auto. ring.
  - intros y' y'' (k & K & Rk) (m & Km & Rm).
    pose (Z := fun i p => stage T h y k i p - stage T h y m i p).
    assert (Zeq : forall i p, (i < n)%nat -> sumn n (fun j => B i j * Z j p) = h * (k i p - m i p)).
    { intros i p Hi. unfold Z, stage. fold n.
      rewrite (sumn_ext n _ (fun j => h * (B i j * sumn n (fun r => rA T j r * (k r p - m r p))))).
      - rewrite sumn_scal. f_equal. rewrite (mat_mat n B (rA T) (fun r => k r p - m r p) i). rewrite (sumn_ext n _ (fun r => (if (i =? r)%nat then 1 else 0) * (k r p - m r p))) by (intros; now rewrite BA).
        now rewrite sum_delta.
      - intros j Hj. rewrite (sumn_ext n (fun r => rA T j r * (k r p - m r p)) (fun r => rA T j r * k r p - rA T j r * m r p)) by (intros; ring). rewrite sumn_minus. ring. }
    assert (Zin : forall i p, (i < n)%nat -> In p l -> Z i p = 0).
    { intros i p Hi Hp. destruct (Req_dec (Z i p) 0) as [|N]; auto. exfalso.
      pose proof (FormPos Z (ex_intro _ i (ex_intro _ p (conj Hi (conj Hp N))))) as Q. rewrite <- (Form Z) in Q. rewrite lsum_prod, lsum_seq in Q. cbn [fst snd] in Q.
      apply (Rlt_irrefl 0). eapply Rlt_le_trans; [exact Q|]. apply (Rle_trans _ (sumn n (fun _ => 0))); [|rewrite sumn_zero; auto; lra]. apply sumn_le. intros j Hj.
      rewrite (lsum_ext l _ (fun q => (d j * h) * (w q * ((stage T h y k j q - stage T h y m j q) * (F (t + rc T j * h) (stage T h y k j) q - F (t + rc T j * h) (stage T h y m j) q))))).
      - rewrite lsum_scal. pose proof (HD (t + rc T j * h) (stage T h y k j) (stage T h y m j) (Tm j Hj)). pose proof (Pd j Hj). assert (0 <= d j * h) by (apply Rmult_le_pos; lra). nra.
      - intros q Hq. rewrite (Zeq j q Hj). rewrite (K j q Hj), (Km j q Hj). unfold Z. ring. }
    assert (Kout : forall i p, (i < n)%nat -> ~ In p l -> k i p = 0 /\ m i p = 0) by (intros i p Hi Hp; rewrite (K i p Hi), (Km i p Hi), !HO by auto; auto).
    assert (Seq : forall i, (i < n)%nat -> stage T h y k i = stage T h y m i).
    { intros i Hi. apply functional_extensionality. intros q. destruct (in_dec eqd q l) as [Hq|Hq]; [specialize (Zin i q Hi Hq); unfold Z in Zin; lra|].
      unfold stage. f_equal. f_equal. apply sumn_ext. intros j Hj. destruct (Kout j q Hj Hq) as [-> ->]. reflexivity. }
    intros p. rewrite (Rk p), (Rm p). f_equal. f_equal. apply sumn_ext. intros i Hi. f_equal. rewrite (K i p Hi), (Km i p Hi), (Seq i Hi). reflexivity.
Qed.
Theorem coercive_run : forall hs t y, t0 <= t -> (forall h, In h hs -> 0 <= h) -> t + total hs <= t1 -> supported l y ->
  (exists y', supported l y' /\ rk_run T F t y hs y') /\ forall y' y'', rk_run T F t y hs y' -> rk_run T F t y hs y'' -> forall p, y' p = y'' p.
Proof.
  induction hs as [|h hs IH]; intros t y Ht Hh Hs Hy; cbn [rk_run].
  - split; [exists y; auto|]. intros y' y'' A1 A2 p. now rewrite A1, A2.
  - assert (H0 : 0 <= h) by (apply Hh; now left). cbn [total] in Hs.
    assert (P : 0 <= total hs). { clear -Hh. induction hs as [|a hs IH]; cbn [total]; [lra|]. assert (0 <= a) by (apply Hh; right; now left). assert (0 <= total hs); [|lra]. apply IH. intros x [->|Hx]; apply Hh; [now left|right; now right]. }
    destruct (coercive_step t h y Ht H0 ltac:(lra) Hy) as [(y1 & S1 & R1) U].
    assert (Hh' : forall x, In x hs -> 0 <= x) by (intros; apply Hh; now right).
    assert (T1 : t0 <= t + h) by lra. assert (T2 : t + h + total hs <= t1) by lra.
    destruct (IH (t + h) y1 T1 Hh' T2 S1) as [(y2 & S2 & R2) U2]. split.
    + exists y2. split; auto. exists y1. auto.
    + intros y' y'' (z & Z1 & Z2) (z' & Z1' & Z2').
      assert (E : z = y1) by (apply functional_extensionality; intro p; apply (U z y1); auto).
      assert (E' : z' = y1) by (apply functional_extensionality; intro p; apply (U z' y1); auto).
      subst. now apply U2.
Qed.
End Step.
