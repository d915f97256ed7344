(** The energy identity of the spherical update. *)
From Coq Require Import ZArith QArith Qreals.
From Coquelicot Require Import Coquelicot.
From Verif Require Import Py PyLemmas Calc Legendre Cheb DGModel DGSpec DGProofs DGInt DGBalance DGFinal GmatModel MatModel RhsModel RhsProofs
  SpherePoly SphereProofs SphereBal SphereWeak SphereThms PosDef SphMass SphUnif.
Open Scope R_scope.

Definition dfield (M : nat) (u : nat -> R) (a b x : R) : R := sumn (M + 1) (fun j => u j * Derive (fun y => basis Sphere j y a b) x).
Lemma dfield_ok M u a b : a < b -> forall x, is_derive (field Sphere M u a b) x (dfield M u a b x).
Proof. intros H x. unfold field, dfield. apply (dd_sumn (M + 1) (fun j x => u j * basis Sphere j x a b)). intros j _. apply dd_scal. now apply dbasis_ok. Qed.
Lemma dfield_cont M u a b : a < b -> forall x, continuous (dfield M u a b) x.
Proof.
  intros H x. unfold dfield. induction (M + 1)%nat as [|n IH]; cbn [sumn]; [apply cconst|].
  apply cplus; [apply IH|]. apply cmult; [apply cconst|now apply dbasis_cont].
Qed.
(** bilinear forms as integrals *)
Lemma int_bil (f : R -> R) (g : nat -> R -> R) M x y a b (A : nat -> nat -> R) :
  (forall i j, (i < M + 1)%nat -> (j < M + 1)%nat -> is_RInt (fun r => f r * g i r * basis Sphere j r a b) a b (A i j)) ->
  is_RInt (fun r => f r * sumn (M + 1) (fun i => x i * g i r) * field Sphere M y a b r) a b (sumn (M + 1) (fun i => x i * dotv (M + 1) A y i)).
Proof.
  intros H. apply (int_ext (fun r => sumn (M + 1) (fun i => x i * (f r * g i r * field Sphere M y a b r)))).
  { intros r. transitivity (f r * field Sphere M y a b r * sumn (M + 1) (fun i => x i * g i r)); [|ring].
    rewrite <- sumn_scal. apply sumn_ext. intros; ring. }
  apply int_sumn. intros i Hi. apply int_scal. apply (int_dot (fun r => f r * g i r)). auto.
Qed.
Lemma bil_sym n A x y : (forall i j, (i < n)%nat -> (j < n)%nat -> A i j = A j i) ->
  sumn n (fun i => x i * dotv n A y i) = sumn n (fun i => y i * dotv n A x i).
Proof.
  intros H. unfold dotv. rewrite (sumn_ext n _ (fun i => sumn n (fun j => x i * (A i j * y j)))) by (intros; now rewrite <- sumn_scal).
  rewrite sumn_swap. apply sumn_ext. intros j Hj. rewrite <- sumn_scal. apply sumn_ext. intros i Hi. rewrite H by auto. ring.
Qed.

(** square content of a cell *)
Definition sq_content (M : nat) (E : nat -> R -> R) (U : nat -> R -> R) (s : nat) (w : R) : R :=
  RInt (fun x => x ^ 2 * field Sphere M (fun j => U j w) (E s w) (E (S s) w) x ^ 2) (E s w) (E (S s) w).

Section En.
Variables (c : rhs_cfg) (t : R) (E : nat -> R -> R) (V : nat -> nat -> nat -> R -> R) (st : nat -> flux_state).
Let fc := rflux c.
Let n := (fM fc + 1)%nat.
Let Vt := fun l k j => V l k j t.
Let D := r_Dedges c t.
Hypothesis Hg : fgeom fc = Sphere.
Hypothesis HN : (2 <= fN fc)%nat.
Hypothesis HE : forall k, r_edges c t k = E k t.
Hypothesis He : increasing (fN fc) (fun k => E k t).
Hypothesis HD : forall k, (k <= fN fc)%nat -> is_derive (E k) t (D k).
Variables (s : nat) (W : nat -> nat -> R).
Hypothesis Hs : (s < fN fc)%nat.
Let aa := E s t.
Let bb := E (S s) t.
Hypothesis HW : rhs_space c st t Vt s = Ok W.
Hypothesis HM : mass_exact (tabs c) n aa bb.
Hypothesis HJ : J_exact (tabs c) n aa bb.
Hypothesis HL : L_exact (tabs c) n aa bb.
Hypothesis Hinv : inverts n (make_mass_sphere (tabs c) aa bb) (inv c (make_mass_sphere (tabs c) aa bb)).
Variable a : nat.
Hypothesis HV : forall j, (j < n)%nat -> is_derive (V a s j) t (W a j).
Let psi (u : nat -> R) := field Sphere (fM fc) u aa bb.
Let refl := Vt (refl_index c s a) 0%nat.
Let A := make_mass_sphere (tabs c) aa bb.

Lemma sq_val (U : nat -> R -> R) w : E s w < E (S s) w ->
  sq_content (fM fc) E U s w = sumn n (fun i => U i w * sumn n (fun j => Mform i j (E s w) (E (S s) w) / PI * U j w)).
Proof.
  intros H. apply int_uniq. pose (F := field Sphere (fM fc) (fun j => U j w) (E s w) (E (S s) w)).
  apply (int_ext (fun x => x ^ 2 * F x * F x)); [intros; unfold F; ring|].
  apply (int_bil (fun x => x ^ 2) (fun i x => basis Sphere i x (E s w) (E (S s) w)) (fM fc) (fun j => U j w) (fun j => U j w) _ _ (fun i j => Mform i j (E s w) (E (S s) w) / PI)).
  intros i j _ _. now apply mass_is.
Qed.
Lemma A_sym i j : (i < n)%nat -> (j < n)%nat -> A i j = A j i.
Proof. intros Hi Hj. eapply int_uniq2; [apply HM; auto|]. eapply int_ext; [|apply (HM j i); auto]. intros. cbv beta. ring. Qed.
Lemma A_form i j : (i < n)%nat -> (j < n)%nat -> A i j = Mform i j aa bb / PI.
Proof. intros. eapply int_uniq2; [apply HM; auto|]. apply mass_is. exact (He s Hs). Qed.

Lemma sq_dt : is_derive (sq_content (fM fc) E (V a s) s) t
   (sumn n (fun i => Vt a s i * sumn n (fun j => M'form i j aa bb (D s) (D (S s)) / PI * Vt a s j)) + 2 * sumn n (fun i => Vt a s i * dotv n A (W a) i)).
Proof.
  apply (dd_loc (fun w => sumn n (fun i => V a s i w * sumn n (fun j => Mform i j (E s w) (E (S s) w) / PI * V a s j w)))).
  - assert (L : locally t (fun w => E s w < E (S s) w)).
    { eapply locally_lt; [apply HD; lia|apply HD; lia|]. exact (He s Hs). }
    generalize L. apply filter_imp. intros w Hw. now rewrite sq_val.
  - eapply dd_eq.
    + apply dd_sumn. intros i Hi. apply dd_mult; [apply HV; auto|]. apply dd_sumn. intros j Hj.
      apply dd_mult; [apply dd_divc; apply (Mform_dt (E s) (E (S s)) t (D s) (D (S s))); apply HD; lia|apply HV; auto].
    + cbv beta. fold aa bb.
      transitivity (sumn n (fun i => W a i * dotv n A (Vt a s) i) + (sumn n (fun i => Vt a s i * sumn n (fun j => M'form i j aa bb (D s) (D (S s)) / PI * Vt a s j)) + sumn n (fun i => Vt a s i * dotv n A (W a) i))).
      * rewrite <- !sumn_plus. apply sumn_ext. intros i Hi. unfold Vt. f_equal.
        -- f_equal. unfold dotv. apply sumn_ext. intros j Hj. now rewrite A_form.
        -- rewrite sumn_plus, Rmult_plus_distr_l. f_equal. f_equal. unfold dotv. apply sumn_ext. intros j Hj. now rewrite A_form.
      * rewrite (bil_sym n A (W a) (Vt a s)) by (intros; now apply A_sym). ring.
Qed.

Lemma cell_energy vl vr :
  face fc t (fun k => E k t) D (Vt a) (mus c a) refl s vl -> face fc t (fun k => E k t) D (Vt a) (mus c a) refl (S s) vr ->
  is_derive (sq_content (fM fc) E (V a s) s) t
   (aa ^ 2 * (mus c a - D s) * (2 * vl * psi (Vt a s) aa - psi (Vt a s) aa ^ 2)
    - bb ^ 2 * (mus c a - D (S s)) * (2 * vr * psi (Vt a s) bb - psi (Vt a s) bb ^ 2)
    - 2 * mus c a * RInt (fun x => x * psi (Vt a s) x ^ 2) aa bb
    - 2 * RInt (fun x => x * psi (Vt a s) x * psi (dterm c Vt s a) x) aa bb
    + 2 * sigma_s c * RInt (fun x => x ^ 2 * psi (Vt a s) x * sumn (N_ang c) (fun l => wsa c l * psi (Vt l s) x)) aa bb
    - 2 * RInt (fun x => x ^ 2 * psi (Vt a s) x ^ 2) aa bb
    + sigma_s c * sumn n (fun i => Vt a s i * Src c t aa bb i)).
Proof.
  intros F1 F2. assert (Hab : aa < bb) by exact (He s Hs).
  eapply dd_eq; [apply sq_dt|].
  assert (EX : exists G MPR, make_G_sphere n aa bb (D s) (D (S s)) = Ok G /\ make_MPRIME n aa bb (D s) (D (S s)) = Ok MPR /\
    forall i, (i < n)%nat -> dotv n A (W a) i =
     - (basis Sphere i bb aa bb * (bb ^ 2 * (mus c a - D (S s)) * vr) - basis Sphere i aa aa bb * (aa ^ 2 * (mus c a - D s) * vl))
     + mus c a * dotv n (make_L_sphere (tabs c) aa bb) (Vt a s) i - dotv n (make_J_sphere (tabs c) aa bb) (dterm c Vt s a) i
     + dotv n G (Vt a s) i + 1 / 2 * sigma_s c * Src c t aa bb i - dotv n MPR (Vt a s) i
     + sigma_s c * dotv n A (make_P (N_ang c) (wsa c) (fun l j => Vt l s j)) i - dotv n A (Vt a s) i).
  { assert (H0 : (0 < n)%nat) by (unfold n; lia).
    destruct (mass_update c t E V st Hg HN HE He s W Hs HW Hinv a 0 H0) as (vl0 & vr0 & G & MPR & _ & _ & EG & EM & _).
    exists G, MPR. split; [exact EG|split; [exact EM|]]. intros i Hi.
    destruct (mass_update c t E V st Hg HN HE He s W Hs HW Hinv a i Hi) as (vl' & vr' & G' & MPR' & F1' & F2' & EG' & EM' & EU).
    fold fc n D aa bb in EG', EM', EG, EM. fold aa bb in EG', EM', EG, EM.
    assert (X1 : Ok G' = Ok G) by (transitivity (make_G_sphere n aa bb (D s) (D (S s))); [symmetry; exact EG'|exact EG]). injection X1 as X1.
    assert (X2 : Ok MPR' = Ok MPR) by (transitivity (make_MPRIME n aa bb (D s) (D (S s))); [symmetry; exact EM'|exact EM]). injection X2 as X2. subst G' MPR'.
    rewrite (face_fun fc t _ D (Vt a) (mus c a) refl HN He s vl vl' F1 F1'), (face_fun fc t _ D (Vt a) (mus c a) refl HN He (S s) vr vr' F2 F2').
    exact EU. }
  destruct EX as (G & MPR & EG & EM & EU).
  rewrite (sumn_ext n (fun i => Vt a s i * dotv n A (W a) i) _ (fun i Hi => f_equal (Rmult (Vt a s i)) (EU i Hi))).
  set (U := Vt a s) in *.
  assert (S1 : forall g : nat -> R, sumn n (fun i => U i * g i) = sumn n (fun i => U i * g i)) by auto.
  rewrite (sumn_ext n (fun i => U i * (- (basis Sphere i bb aa bb * (bb ^ 2 * (mus c a - D (S s)) * vr) - basis Sphere i aa aa bb * (aa ^ 2 * (mus c a - D s) * vl))
     + mus c a * dotv n (make_L_sphere (tabs c) aa bb) U i - dotv n (make_J_sphere (tabs c) aa bb) (dterm c Vt s a) i
     + dotv n G U i + 1 / 2 * sigma_s c * Src c t aa bb i - dotv n MPR U i
     + sigma_s c * dotv n A (make_P (N_ang c) (wsa c) (fun l j => Vt l s j)) i - dotv n A U i))
    (fun i => - (bb ^ 2 * (mus c a - D (S s)) * vr) * (U i * basis Sphere i bb aa bb) + (aa ^ 2 * (mus c a - D s) * vl) * (U i * basis Sphere i aa aa bb)
     + mus c a * (U i * dotv n (make_L_sphere (tabs c) aa bb) U i) + (-1) * (U i * dotv n (make_J_sphere (tabs c) aa bb) (dterm c Vt s a) i)
     + (U i * dotv n G U i) + 1 / 2 * sigma_s c * (U i * Src c t aa bb i) + (-1) * (U i * dotv n MPR U i)
     + sigma_s c * (U i * dotv n A (make_P (N_ang c) (wsa c) (fun l j => Vt l s j)) i) + (-1) * (U i * dotv n A U i))) by (intros; ring).
  rewrite !sumn_plus, !sumn_scal.
  change (sumn n (fun i => U i * basis Sphere i bb aa bb)) with (psi U bb).
  change (sumn n (fun i => U i * basis Sphere i aa aa bb)) with (psi U aa).
  assert (EL : 2 * sumn n (fun i => U i * dotv n (make_L_sphere (tabs c) aa bb) U i) = bb ^ 2 * psi U bb ^ 2 - aa ^ 2 * psi U aa ^ 2 - 2 * RInt (fun x => x * psi U x ^ 2) aa bb).
  { eapply int_uniq2.
    - apply int_scal. apply (int_bil (fun r => r ^ 2) (fun i r => Derive (fun y => basis Sphere i y aa bb) r)). intros i j Hi Hj. apply HL; auto.
    - apply (int_ext (fun x => x ^ 2 * (2 * (psi U x * dfield (fM fc) U aa bb x)))); [intros; unfold dfield, psi; ring|].
      apply (ibp2 (fun x => psi U x ^ 2)).
      + intros x. apply (dd_ext (fun x => psi U x * psi U x)); [intros; ring|]. eapply dd_eq; [apply dd_mult; apply dfield_ok; auto|]. unfold psi. cbv beta. ring.
      + intros x. apply cmult; [apply cconst|]. apply cmult; [now apply sph_field_cont|now apply dfield_cont]. }
  assert (EJ : sumn n (fun i => U i * dotv n (make_J_sphere (tabs c) aa bb) (dterm c Vt s a) i) = RInt (fun x => x * psi U x * psi (dterm c Vt s a) x) aa bb).
  { symmetry. apply int_uniq. apply (int_bil (fun r => r) (fun i r => basis Sphere i r aa bb)). intros i j Hi Hj. apply HJ; auto. }
  assert (EA : sumn n (fun i => U i * dotv n A U i) = RInt (fun x => x ^ 2 * psi U x ^ 2) aa bb).
  { symmetry. apply int_uniq. apply (int_ext (fun x => x ^ 2 * psi U x * psi U x)); [intros; ring|].
    apply (int_bil (fun r => r ^ 2) (fun i r => basis Sphere i r aa bb)). intros i j Hi Hj. apply HM; auto. }
  assert (EP : sumn n (fun i => U i * dotv n A (make_P (N_ang c) (wsa c) (fun l j => Vt l s j)) i)
      = RInt (fun x => x ^ 2 * psi U x * sumn (N_ang c) (fun l => wsa c l * psi (Vt l s) x)) aa bb).
  { symmetry. apply int_uniq. apply (int_ext (fun x => x ^ 2 * psi U x * psi (make_P (N_ang c) (wsa c) (fun l j => Vt l s j)) x)).
    { intros x. f_equal. unfold psi, field, make_P. symmetry. erewrite sumn_ext by (intros l _; rewrite <- sumn_scal; reflexivity). rewrite sumn_swap.
      apply sumn_ext. intros j _. rewrite <- sumn_scal_r. apply sumn_ext. intros; ring. }
    apply (int_bil (fun r => r ^ 2) (fun i r => basis Sphere i r aa bb)). intros i j Hi Hj. apply HM; auto. }
  assert (EG' : sumn n (fun i => U i * dotv n MPR U i) = 2 * sumn n (fun i => U i * dotv n G U i) + (bb ^ 2 * psi U bb ^ 2 * D (S s) - aa ^ 2 * psi U aa ^ 2 * D s)).
  { rewrite (sumn_ext n (fun i => U i * dotv n MPR U i)
      (fun i => U i * dotv n G U i + (U i * dotv n (fun i j => G j i) U i + (bb ^ 2 * D (S s) * psi U bb * (U i * basis Sphere i bb aa bb) + - (aa ^ 2 * D s * psi U aa) * (U i * basis Sphere i aa aa bb))))).
    - rewrite !sumn_plus, !sumn_scal.
      change (sumn n (fun i => U i * basis Sphere i bb aa bb)) with (psi U bb).
      change (sumn n (fun i => U i * basis Sphere i aa aa bb)) with (psi U aa).
      replace (sumn n (fun i => U i * dotv n (fun i j => G j i) U i)) with (sumn n (fun i => U i * dotv n G U i)); [ring|].
      unfold dotv. rewrite (sumn_ext n (fun i => U i * sumn n (fun j => G i j * U j)) (fun i => sumn n (fun j => U i * (G i j * U j)))) by (intros; now rewrite <- sumn_scal).
      rewrite sumn_swap. apply sumn_ext. intros j _. rewrite <- sumn_scal. apply sumn_ext. intros; ring.
    - intros i Hi.
      transitivity (U i * (dotv n G U i + dotv n (fun i j => G j i) U i + (bb ^ 2 * D (S s) * basis Sphere i bb aa bb * psi U bb - aa ^ 2 * D s * basis Sphere i aa aa bb * psi U aa))); [|ring].
      f_equal. unfold psi, field. fold n. unfold dotv. rewrite <- !sumn_scal, <- !sumn_plus, <- sumn_minus, <- sumn_plus. apply sumn_ext. intros j Hj.
      destruct (over_pi_inv n _ G EG i j Hi Hj) as (g1 & Eg1 & ->). destruct (over_pi_inv n _ G EG j i Hj Hi) as (g2 & Eg2 & ->).
      destruct (over_pi_inv n _ MPR EM i j Hi Hj) as (g3 & Eg3 & ->).
      rewrite (C22_mass_rate_consistent_with_motion i j aa bb (D s) (D (S s)) g1 g2 g3 Hab Eg1 Eg2 Eg3). ring. }
  assert (EM' : sumn n (fun i => U i * sumn n (fun j => M'form i j aa bb (D s) (D (S s)) / PI * U j)) = sumn n (fun i => U i * dotv n MPR U i)).
  { apply sumn_ext. intros i Hi. f_equal. unfold dotv. apply sumn_ext. intros j Hj. destruct (over_pi_inv n _ MPR EM i j Hi Hj) as (g & Eg & ->).
    apply M_entry in Eg. now rewrite Eg. }
  rewrite EM', EG', EJ, EA, EP.
  set (GU := sumn n (fun i => U i * dotv n G U i)). set (LU := sumn n (fun i => U i * dotv n (make_L_sphere (tabs c) aa bb) U i)) in *.
  set (SU := sumn n (fun i => U i * Src c t aa bb i)). clearbody GU LU SU.
  revert EL. generalize (RInt (fun x => x * psi U x ^ 2) aa bb) (RInt (fun x => x * psi U x * psi (dterm c Vt s a) x) aa bb) (RInt (fun x => x ^ 2 * psi U x ^ 2) aa bb)
    (RInt (fun x => x ^ 2 * psi U x * sumn (N_ang c) (fun l => wsa c l * psi (Vt l s) x)) aa bb).
  intros I1 I2 I3 I4 EL.
  replace LU with ((bb ^ 2 * psi U bb ^ 2 - aa ^ 2 * psi U aa ^ 2 - 2 * I1) / 2) by lra. field.
Qed.
End En.
