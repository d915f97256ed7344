(** Chebyshev polynomials of the first kind by recurrence.  Mathematics only. *)
From Verif Require Export Calc.
Open Scope R_scope.

Fixpoint chebp (n : nat) (z : R) : R * R :=
  match n with
  | O => (1, z)
  | S m => let '(p, q) := chebp m z in (q, 2 * z * q - p)
  end.
(** T_n(z) *)
Definition cheb (n : nat) (z : R) : R := fst (chebp n z).
Lemma cheb_0 z : cheb 0 z = 1. Proof. reflexivity. Qed.
Lemma cheb_1 z : cheb 1 z = z. Proof. reflexivity. Qed.
Lemma chebp_snd n z : snd (chebp n z) = cheb (S n) z.
Proof. unfold cheb. cbn [chebp]. destruct (chebp n z). reflexivity. Qed.
Lemma cheb_SS n z : cheb (S (S n)) z = 2 * z * cheb (S n) z - cheb n z.
Proof. rewrite <- (chebp_snd (S n)). cbn [chebp]. rewrite <- chebp_snd. unfold cheb. destruct (chebp n z). reflexivity. Qed.
Global Opaque cheb.

Lemma cheb_ind2 (P : nat -> Prop) : P 0%nat -> P 1%nat -> (forall n, P n -> P (S n) -> P (S (S n))) -> forall n, P n.
Proof. intros H0 H1 HS n. assert (P n /\ P (S n)) as [H _]; auto. induction n as [|n [A B]]; split; auto. Qed.

Lemma cheb_cos n th : cheb n (cos th) = cos (INR n * th).
Proof.
  revert n. apply cheb_ind2.
  - rewrite cheb_0. simpl. now rewrite Rmult_0_l, cos_0.
  - rewrite cheb_1. simpl. now rewrite Rmult_1_l.
  - intros n H0 H1. rewrite cheb_SS, H0, H1, !S_INR.
    replace ((INR n + 1 + 1) * th) with ((INR n + 1) * th + th) by ring.
    replace (INR n * th) with ((INR n + 1) * th - th) by ring.
    rewrite cos_plus, cos_minus. ring.
Qed.
Lemma cheb_at_1 n : cheb n 1 = 1.
Proof. revert n. apply cheb_ind2; [apply cheb_0|apply cheb_1|]. intros n H0 H1. rewrite cheb_SS, H0, H1. ring. Qed.
Lemma cheb_at_m1 n : cheb n (-1) = (-1) ^ n.
Proof.
  revert n. apply cheb_ind2; [rewrite cheb_0; reflexivity|rewrite cheb_1; simpl; ring|].
  intros n H0 H1. rewrite cheb_SS, H0, H1. simpl. ring.
Qed.
Lemma cheb_opp n z : cheb n (- z) = (-1) ^ n * cheb n z.
Proof.
  revert n. apply cheb_ind2; [rewrite !cheb_0; simpl; ring|rewrite !cheb_1; simpl; ring|].
  intros n H0 H1. rewrite !cheb_SS, H0, H1. simpl. ring.
Qed.
(** 2 T_(d+n) T_n = T_(d+2n) + T_d *)
Lemma cheb_prod n : forall d z, 2 * cheb (d + n) z * cheb n z = cheb (d + 2 * n) z + cheb d z.
Proof.
  revert n. apply (cheb_ind2 (fun n => forall d z, 2 * cheb (d + n) z * cheb n z = cheb (d + 2 * n) z + cheb d z)).
  - intros. rewrite cheb_0. replace (d + 0)%nat with d by lia. replace (d + 2 * 0)%nat with d by lia. ring.
  - intros. rewrite cheb_1. replace (d + 1)%nat with (S d) by lia. replace (d + 2 * 1)%nat with (S (S d)) by lia. rewrite cheb_SS. ring.
  - intros n H0 H1 d z.
    (* with k = d+2 : T_k+n *)
    rewrite (cheb_SS n).
    pose proof (H1 (S d) z) as E1. pose proof (H0 (S (S d)) z) as E0.
    replace (S d + S n)%nat with (d + S (S n))%nat in E1 by lia.
    replace (S (S d) + n)%nat with (d + S (S n))%nat in E0 by lia.
    replace (d + 2 * S (S n))%nat with (S (S (d + 2 * n + 2))) by lia. rewrite cheb_SS.
    replace (S d + 2 * S n)%nat with (S (d + 2 * n + 2)) in E1 by lia.
    replace (S (S d) + 2 * n)%nat with (d + 2 * n + 2)%nat in E0 by lia.
    rewrite cheb_SS in E0.
    transitivity (2 * z * (2 * cheb (d + S (S n)) z * cheb (S n) z) - 2 * cheb (d + S (S n)) z * cheb n z); [ring|].
    rewrite E1, E0. ring.
Qed.
