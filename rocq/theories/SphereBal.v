(** Parity, the format of the spherical coefficient tables, and the balance of the spherical update. *)
From Coq Require Import ZArith QArith Qreals.
From Verif Require Import Py PyLemmas Legendre Cheb DGModel DGSpec DGProofs DGInt DGBalance DGFinal GmatModel MatModel RhsModel SpherePoly SphereProofs.
Open Scope R_scope.

(** a matrix computed from the tables is the integral it stands for *)
Definition mass_exact (T : tables) (n : nat) (a b : R) : Prop := forall i j, (i < n)%nat -> (j < n)%nat ->
  is_RInt (fun x => x ^ 2 * basis Sphere i x a b * basis Sphere j x a b) a b (make_mass_sphere T a b i j).
Definition J_exact (T : tables) (n : nat) (a b : R) : Prop := forall i j, (i < n)%nat -> (j < n)%nat ->
  is_RInt (fun x => x * basis Sphere i x a b * basis Sphere j x a b) a b (make_J_sphere T a b i j).
Definition L_exact (T : tables) (n : nat) (a b : R) : Prop := forall i j, (i < n)%nat -> (j < n)%nat ->
  is_RInt (fun x => x ^ 2 * Derive (fun y => basis Sphere i y a b) x * basis Sphere j x a b) a b (make_L_sphere T a b i j).

(* ------------------------------------------------------------------ parity *)
Lemma odd_int (f : R -> R) l : (forall z, f (- z) = - f z) -> is_RInt f (-1) 1 l -> l = 0.
Proof.
  intros Hf H. assert (H2 : is_RInt f (-1) 1 (- l)).
  { apply (int_ext (fun x => -1 * f (-1 * x + 0))).
    { intro z. replace (-1 * z + 0) with (- z) by ring. rewrite Hf. ring. }
    apply int_affine. replace (-1 * -1 + 0) with 1 by ring. replace (-1 * 1 + 0) with (-1) by ring.
    apply (is_RInt_swap (V := R_NormedModule)) in H. exact H. }
  pose proof (int_uniq2 _ _ _ _ _ H H2). lra.
Qed.
Lemma dcheb_opp n z : dcheb n (- z) = (-1) ^ (S n) * dcheb n z.
Proof.
  assert (A : is_derive (fun y => cheb n (- y)) z (-1 * dcheb n (- z))).
  { apply (dd_comp (cheb n) (fun y => - y)); [apply cheb_derive|]. eapply dd_eq; [apply dd_opp, dd_id|ring]. }
  assert (B : is_derive (fun y => cheb n (- y)) z ((-1) ^ n * dcheb n z)).
  { apply (dd_ext (fun y => (-1) ^ n * cheb n y)); [intro; now rewrite cheb_opp|]. apply dd_scal, cheb_derive. }
  apply is_derive_unique in A, B. rewrite A in B. simpl. lra.
Qed.
Lemma m1_odd k : Nat.odd k = true -> (-1) ^ k = -1.
Proof. intros H. apply Nat.odd_spec in H. destruct H as [m ->]. rewrite Nat.add_1_r. cbn [pow]. rewrite pow_1_even. ring. Qed.
Lemma opp_pow z p : (- z) ^ p = (-1) ^ p * z ^ p.
Proof. replace (- z) with (-1 * z) by ring. apply Rpow_mult_distr. Qed.
Lemma al_zero p i j : Nat.odd (p + i + j) = true -> Q2R (al p i j) = 0.
Proof.
  intros H. eapply odd_int; [|apply al_ok]. intro z. cbv beta. rewrite opp_pow, !cheb_opp.
  replace ((-1) ^ p * z ^ p * ((-1) ^ i * cheb i z * ((-1) ^ j * cheb j z))) with ((-1) ^ (p + i + j) * (z ^ p * (cheb i z * cheb j z)))
    by (rewrite !pow_add; ring).
  rewrite m1_odd by auto. ring.
Qed.
Lemma be_zero p i j : Nat.odd (S (p + i + j)) = true -> Q2R (be p i j) = 0.
Proof.
  intros H. eapply odd_int; [|apply be_ok]. intro z. cbv beta. rewrite opp_pow, cheb_opp, dcheb_opp.
  replace ((-1) ^ p * z ^ p * ((-1) ^ S i * dcheb i z * ((-1) ^ j * cheb j z))) with ((-1) ^ (S (p + i + j)) * (z ^ p * (dcheb i z * cheb j z)))
    by (cbn [pow]; rewrite !pow_add; ring).
  rewrite m1_odd by auto. ring.
Qed.
Lemma par2 i j : ((i + j + 2) mod 2 =? 0)%nat = Nat.even (i + j).
Proof. replace (i + j + 2)%nat with (i + j + 1 * 2)%nat by lia. rewrite Nat.mod_add by lia. apply mod2_even. Qed.

(* ------------------------------------------------------------------ integrals *)
Lemma J_is i j a b : a < b ->
  is_RInt (fun x => x * basis Sphere i x a b * basis Sphere j x a b) a b
    (1 / 2 * (rn i * rn j) * ((a + b) / 2 * Q2R (al 0 i j) + (b - a) / 2 * Q2R (al 1 i j)) / PI).
Proof.
  intros H. pose proof (ph_pos a b H) as P.
  pose (F := fun z => rn i * rn j / (PI * (b - a)) * ((a + b) / 2 * (z ^ 0 * (cheb i z * cheb j z)) + (b - a) / 2 * (z ^ 1 * (cheb i z * cheb j z)))).
  apply (int_ext (fun x => F (refz x a b))).
  { intro x. transitivity (((a + b) / 2 + (b - a) / 2 * refz x a b) * basis Sphere i x a b * basis Sphere j x a b).
    - unfold F. rewrite !basis_sph, <- scc by auto. ring.
    - now rewrite <- x_ref. }
  eapply int_eq; [apply (int_ref F); [auto|]; unfold F; apply int_scal, int_plus; apply int_scal, al_ok|].
  generalize (Q2R (al 0 i j)) (Q2R (al 1 i j)). intros. field. split; (apply PI_neq0 || lra).
Qed.
Lemma cbasis_dx i x a b : a < b ->
  is_derive (fun y => basis Sphere i y a b) x (sqrt (cn i / (PI * (b - a))) * (2 / (b - a) * dcheb i (refz x a b))).
Proof.
  intros. change (fun y => basis Sphere i y a b) with (fun y => sqrt (cn i / (PI * (b - a))) * cheb i (refz y a b)).
  apply dd_scal. apply (dd_comp (cheb i) (fun y => refz y a b)); [apply cheb_derive|now apply refz_derive].
Qed.
Lemma L_is i j a b : a < b ->
  is_RInt (fun x => x ^ 2 * Derive (fun y => basis Sphere i y a b) x * basis Sphere j x a b) a b
    (rn i * rn j / (b - a) * Bq ((a + b) / 2) ((b - a) / 2) i j / PI).
Proof.
  intros H. pose proof (ph_pos a b H) as P.
  pose (F := fun z => rn i * rn j / (PI * (b - a)) * (2 / (b - a)) * (((a + b) / 2 + (b - a) / 2 * z) ^ 2 * (dcheb i z * cheb j z))).
  apply (int_ext (fun x => F (refz x a b))).
  { intro x. erewrite (is_derive_unique (fun y : R => basis Sphere i y a b) x) by (apply cbasis_dx; auto).
    unfold F. rewrite <- x_ref by auto. rewrite !basis_sph, <- scc by auto. ring. }
  eapply int_eq; [apply (int_ref F); [auto|]; unfold F; apply int_scal, Bq_ok|].
  generalize (Bq ((a + b) / 2) ((b - a) / 2) i j). intros. field. split; (apply PI_neq0 || lra).
Qed.

(* ------------------------------------------------------------------ the table format suffices *)
Definition ideal : tables := {|
  Mass_coeff_even := fun i j p => 1 / 2 * (rn i * rn j) / sqrt_two_mass_func i j *
     match p with 1%nat => (Q2R (al 0 i j) - Q2R (al 2 i j)) / 2 | _ => (Q2R (al 0 i j) + Q2R (al 2 i j)) / 4 end;
  Mass_coeff_odd := fun i j p => 1 / 2 * (rn i * rn j) / sqrt_two_mass_func i j *
     match p with 0%nat => - Q2R (al 1 i j) / 2 | _ => Q2R (al 1 i j) / 2 end;
  Mass_denom := fun _ _ => 1%Z;
  J_coeff := fun i j p => 1 / 2 * (rn i * rn j) *
     (if xorb (i =? 0)%nat (j =? 0)%nat then sqrt 2 else 1) *
     match p with 0%nat => (Q2R (al 0 i j) - Q2R (al 1 i j)) / 2 | _ => (Q2R (al 0 i j) + Q2R (al 1 i j)) / 2 end;
  J_denom := fun _ _ => 1%Z;
  L_coeff_even := fun i j p => rn i * rn j / (if (j =? 0)%nat then sqrt 2 else 1) * (Q2R (be 1 i j) / 2);
  L_coeff_odd := fun i j p => - (rn i * rn j) / (if (j =? 0)%nat then sqrt 2 else 1) *
     match p with 1%nat => (Q2R (be 0 i j) - Q2R (be 2 i j)) / 2 | _ => (Q2R (be 0 i j) + Q2R (be 2 i j)) / 4 end;
  L_denom := fun _ _ => 1%Z
|}.
Lemma rtf_nz i j : sqrt_two_mass_func i j <> 0.
Proof.
  pose proof sqrt2_nz. unfold sqrt_two_mass_func.
  assert (1 / sqrt 2 <> 0) by (unfold Rdiv; rewrite Rmult_1_l; now apply Rinv_neq_0_compat).
  destruct (i =? 0)%nat, (j =? 0)%nat, (i mod 2 =? 0)%nat, (j mod 2 =? 0)%nat; cbn [andb orb negb]; auto; lra.
Qed.
Lemma odd_even_false k : Nat.even k = false -> Nat.odd k = true.
Proof. intros H. unfold Nat.odd. now rewrite H. Qed.
Lemma odd_S_even k : Nat.even k = true -> Nat.odd (S k) = true.
Proof. intros H. now rewrite Nat.odd_succ. Qed.
Lemma be0 p j : Q2R (be p 0 j) = 0.
Proof.
  eapply int_uniq2; [apply be_ok|]. eapply int_eq; [apply (int_ext (fun _ => 0)); [|apply int_const]|ring].
  intro z. unfold dcheb. simpl. ring.
Qed.
Lemma ideal_mass n a b : a < b -> mass_exact ideal n a b.
Proof.
  intros H i j _ _. eapply int_eq; [apply mass_is; auto|]. unfold Mform, Aq, make_mass_sphere. rewrite par2.
  pose proof (rtf_nz i j) as R0. pose proof PI_neq0.
  destruct (Nat.even (i + j)) eqn:E; cbn [orb ideal Mass_coeff_even Mass_coeff_odd Mass_denom].
  - rewrite (al_zero 1) by (apply odd_S_even; auto). field. auto.
  - destruct (Nat.eqb_spec i 0) as [->|]; [destruct (Nat.eqb_spec j 0) as [->|]; [discriminate|]|]; cbn [andb];
      rewrite (al_zero 0), (al_zero 2) by (apply odd_even_false; auto); field; auto.
Qed.
Lemma ideal_J n a b : a < b -> J_exact ideal n a b.
Proof.
  intros H i j _ _. eapply int_eq; [apply J_is; auto|]. unfold make_J_sphere. pose proof sqrt2_nz. pose proof PI_neq0.
  cbn [ideal J_coeff J_denom]. destruct (i =? 0)%nat, (j =? 0)%nat; cbn [andb negb xorb]; field; auto.
Qed.
Lemma ideal_L n a b : a < b -> L_exact ideal n a b.
Proof.
  intros H i j _ _. eapply int_eq; [apply L_is; auto|]. unfold make_L_sphere, Bq. rewrite par2. pose proof sqrt2_nz. pose proof PI_neq0.
  destruct i as [|i0]; cbn [Nat.eqb].
  - rewrite !be0. field. split; (auto || lra).
  - remember (S i0) as i eqn:Hi. cbn [ideal L_coeff_even L_coeff_odd L_denom]. destruct (Nat.even (i + j)) eqn:E; cbn [negb].
    + rewrite (be_zero 0), (be_zero 2) by (apply odd_S_even; auto). destruct (j =? 0)%nat; field; repeat split; auto; lra.
    + rewrite (be_zero 1) by (rewrite Nat.odd_succ; change (1 + i + j)%nat with (S (i + j)); rewrite Nat.even_succ; now apply odd_even_false). destruct (j =? 0)%nat; field; repeat split; auto; lra.
Qed.
