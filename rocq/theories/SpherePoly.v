(** Integer polynomials, their integrals over [-1,1], and integrals of products of Chebyshev polynomials. *)
From Coq Require Import ZArith QArith Qreals.
From Verif Require Import Calc Cheb.
Import ListNotations.
Open Scope R_scope.

Fixpoint pev (l : list Z) (z : R) : R := match l with [] => 0 | c :: l' => IZR c + z * pev l' z end.
Fixpoint padd (l m : list Z) : list Z :=
  match l, m with
  | [], _ => m
  | _, [] => l
  | x :: l', y :: m' => (x + y)%Z :: padd l' m'
  end.
Definition pscal (k : Z) (l : list Z) : list Z := map (Z.mul k) l.
Fixpoint pmul (l m : list Z) : list Z := match l with [] => [] | x :: l' => padd (pscal x m) (0%Z :: pmul l' m) end.
(** derivative: (c + z p)' = p + z p' *)
Fixpoint pder (l : list Z) : list Z := match l with [] => [] | c :: l' => padd l' (0%Z :: pder l') end.
(** integral over [-1,1] of z^k p(z) *)
Fixpoint pint (k : nat) (l : list Z) : Q :=
  match l with
  | [] => 0%Q
  | c :: l' => Qred ((if Nat.even k then (2 * c) # (Pos.of_nat (k + 1)) else 0) + pint (S k) l')%Q
  end.

Lemma pev_add l m z : pev (padd l m) z = pev l z + pev m z.
Proof. revert m. induction l as [|x l IH]; intros [|y m]; cbn [padd pev]; try ring. rewrite IH, plus_IZR. ring. Qed.
Lemma pev_scal k l z : pev (pscal k l) z = IZR k * pev l z.
Proof. induction l as [|x l IH]; cbn [pscal map pev]; [ring|]. unfold pscal in IH. rewrite IH, mult_IZR. ring. Qed.
Lemma pev_mul l m z : pev (pmul l m) z = pev l z * pev m z.
Proof. induction l as [|x l IH]; cbn [pmul pev]; [ring|]. rewrite pev_add, pev_scal. cbn [pev]. rewrite IH. ring. Qed.
Lemma pev_der l z : is_derive (pev l) z (pev (pder l) z).
Proof.
  induction l as [|x l IH]; cbn [pev pder]; [apply dd_const|].
  rewrite pev_add. cbn [pev]. eapply dd_eq; [apply dd_plus; [apply dd_const|apply dd_mult; [apply dd_id|exact IH]]|]. cbv beta. ring.
Qed.
Lemma pev_cont l z : continuous (pev l) z.
Proof. apply (cont_of_derive _ (pev (pder l))). intro; apply pev_der. Qed.

Lemma int_pow k : is_RInt (fun z => z ^ k) (-1) 1 (if Nat.even k then 2 / INR (k + 1) else 0).
Proof.
  assert (Hk : INR (k + 1) <> 0) by (apply not_0_INR; lia).
  eapply int_eq.
  - apply (int_ftc (fun z => z ^ (k + 1) / INR (k + 1))).
    + intro z. eapply dd_eq; [apply dd_divc, (is_derive_pow (fun z => z) (k + 1) z 1), dd_id|].
      replace (Init.Nat.pred (k + 1)) with k by lia. field. auto.
    + auto with cont.
  - cbv beta. rewrite pow1.
    assert (E1 : (-1) ^ (k + 1) = if Nat.even k then -1 else 1).
    { rewrite Nat.add_1_r. cbn [pow]. destruct (Nat.even k) eqn:E.
      - apply Nat.even_spec in E. destruct E as [m ->]. rewrite pow_1_even. ring.
      - assert (O : Nat.odd k = true) by (unfold Nat.odd; now rewrite E). apply Nat.odd_spec in O. destruct O as [m ->].
        rewrite Nat.add_1_r. cbn [pow]. rewrite pow_1_even. ring. }
    rewrite E1. destruct (Nat.even k); field; auto.
Qed.
Lemma INR_pos_of_nat k : INR (k + 1) = IZR (Zpos (Pos.of_nat (k + 1))).
Proof.
  rewrite INR_IZR_INZ. f_equal. rewrite <- (Nat2Pos.id (k + 1)) at 1 by lia. now rewrite positive_nat_Z.
Qed.
Lemma pint_ok l : forall k, is_RInt (fun z => z ^ k * pev l z) (-1) 1 (Q2R (pint k l)).
Proof.
  induction l as [|c l IH]; intro k; cbn [pint pev].
  - eapply int_eq; [apply (int_ext (fun _ => 0)); [intro; ring|apply int_const]|]. unfold Q2R; simpl. field.
  - eapply int_eq.
    + apply (int_ext (fun z => IZR c * z ^ k + z ^ (S k) * pev l z)); [intro; simpl; ring|].
      apply int_plus; [apply int_scal, int_pow|apply IH].
    + rewrite (Qeq_eqR _ _ (Qred_correct _)), Q2R_plus. f_equal.
      destruct (Nat.even k).
      * unfold Q2R. cbn [Qnum Qden]. rewrite mult_IZR, INR_pos_of_nat. unfold Rdiv. ring.
      * unfold Q2R; simpl. field.
Qed.

Fixpoint Tp (n : nat) : list Z * list Z :=
  match n with
  | O => ([1%Z], [0%Z; 1%Z])
  | S m => let '(p, q) := Tp m in (q, padd (0%Z :: pscal 2 q) (pscal (-1) p))
  end.
Definition Tpoly n := fst (Tp n).
Lemma Tp_ok n z : pev (fst (Tp n)) z = cheb n z /\ pev (snd (Tp n)) z = cheb (S n) z.
Proof.
  induction n as [|n [H0 H1]].
  - split; [rewrite cheb_0|rewrite cheb_1]; simpl; ring.
  - cbn [Tp]. destruct (Tp n) as [p q]. cbn [fst snd] in *. split; auto.
    rewrite pev_add, cheb_SS. cbn [pev]. rewrite !pev_scal, H0, H1. ring.
Qed.
Lemma Tpoly_ok n z : pev (Tpoly n) z = cheb n z. Proof. apply Tp_ok. Qed.
Definition dcheb n z := pev (pder (Tpoly n)) z.
Lemma cheb_derive n z : is_derive (cheb n) z (dcheb n z).
Proof. apply (dd_ext (pev (Tpoly n))); [intro; apply Tpoly_ok|apply pev_der]. Qed.

(** the integrals of z^p T_i T_j and z^p T_i' T_j *)
Definition al (p i j : nat) : Q := pint p (pmul (Tpoly i) (Tpoly j)).
Definition be (p i j : nat) : Q := pint p (pmul (pder (Tpoly i)) (Tpoly j)).
Lemma al_ok p i j : is_RInt (fun z => z ^ p * (cheb i z * cheb j z)) (-1) 1 (Q2R (al p i j)).
Proof. eapply int_ext; [|apply pint_ok]. intro z. cbv beta. now rewrite pev_mul, !Tpoly_ok. Qed.
Lemma be_ok p i j : is_RInt (fun z => z ^ p * (dcheb i z * cheb j z)) (-1) 1 (Q2R (be p i j)).
Proof. eapply int_ext; [|apply pint_ok]. intro z. cbv beta. now rewrite pev_mul, !Tpoly_ok. Qed.

(** moments of (m + k z)^2 against the two families *)
Definition Aq m k i j := m^2 * Q2R (al 0 i j) + 2*m*k * Q2R (al 1 i j) + k^2 * Q2R (al 2 i j).
Definition Bq m k i j := m^2 * Q2R (be 0 i j) + 2*m*k * Q2R (be 1 i j) + k^2 * Q2R (be 2 i j).
Definition Cq m k i j := m^2 * Q2R (be 1 i j) + 2*m*k * Q2R (be 2 i j) + k^2 * Q2R (be 3 i j).
Lemma Aq_ok m k i j : is_RInt (fun z => (m + k * z)^2 * (cheb i z * cheb j z)) (-1) 1 (Aq m k i j).
Proof.
  eapply int_ext; [|apply int_plus; [apply int_plus|]; apply int_scal; apply al_ok]. intro z. cbv beta. ring.
Qed.
Lemma Bq_ok m k i j : is_RInt (fun z => (m + k * z)^2 * (dcheb i z * cheb j z)) (-1) 1 (Bq m k i j).
Proof.
  eapply int_ext; [|apply int_plus; [apply int_plus|]; apply int_scal; apply be_ok]. intro z. cbv beta. ring.
Qed.
Lemma Cq_ok m k i j : is_RInt (fun z => (m + k * z)^2 * (z * dcheb i z * cheb j z)) (-1) 1 (Cq m k i j).
Proof.
  eapply int_ext; [|apply int_plus; [apply int_plus|]; apply int_scal; apply be_ok]. intro z. cbv beta. ring.
Qed.
