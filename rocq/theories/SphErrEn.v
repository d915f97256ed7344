(** Energy of an error: the identity of SphEnergy with arbitrary face values and a residual. *)
From Coq Require Import ZArith QArith Qreals.
From Coquelicot Require Import Coquelicot.
From Verif Require Import Py PyLemmas Calc Legendre Cheb DGModel DGSpec DGProofs DGInt DGBalance DGFinal GmatModel MatModel RhsModel RhsProofs
  SpherePoly SphereProofs SphereBal SphereWeak SphereThms PosDef SphMass SphUnif SphEnergy SphSpec SphStab ErrSpec SphErrSpec SphErrProj.
Open Scope R_scope.

Definition Lx (a b : R) (i j : nat) : R := RInt (fun x => x ^ 2 * Derive (fun y => basis Sphere i y a b) x * basis Sphere j x a b) a b.
Definition Jx (a b : R) (i j : nat) : R := RInt (fun x => x * basis Sphere i x a b * basis Sphere j x a b) a b.
Definition Gx (a b a' b' : R) (i j : nat) : R := Gform i j a b a' b' / PI.
Definition M'x (a b a' b' : R) (i j : nat) : R := M'form i j a b a' b' / PI.
Lemma Lx_is a b i j : a < b -> is_RInt (fun x => x ^ 2 * Derive (fun y => basis Sphere i y a b) x * basis Sphere j x a b) a b (Lx a b i j).
Proof. intros H. apply int_val. intros x. apply cmult; [apply cmult; [apply cpow, cid|now apply dbasis_cont]|now apply sph_basis_cont]. Qed.
Lemma Jx_is a b i j : a < b -> is_RInt (fun x => x * basis Sphere i x a b * basis Sphere j x a b) a b (Jx a b i j).
Proof. intros H. apply int_val. intros x. apply cmult; [apply cmult; [apply cid|now apply sph_basis_cont]|now apply sph_basis_cont]. Qed.
Lemma gram_sym a b i j : rgram a b i j = rgram a b j i.
Proof. unfold rgram. f_equal. apply FunctionalExtensionality.functional_extensionality. intros; ring. Qed.
Lemma rate_split i j a b a' b' : (i <= 10)%nat -> (j <= 10)%nat -> a < b ->
  M'x a b a' b' i j = Gx a b a' b' i j + Gx a b a' b' j i + (b ^ 2 * basis Sphere i b a b * basis Sphere j b a b * b' - a ^ 2 * basis Sphere i a a b * basis Sphere j a a b * a').
Proof.
  intros Hi Hj H. unfold M'x, Gx.
  apply (C22_mass_rate_consistent_with_motion i j a b a' b'); auto; [apply G_table; auto; lra|apply G_table; auto; lra|apply M_table; auto].
Qed.

Section En.
Variables (M : nat) (E : nat -> R -> R) (t : R) (s : nat) (da db : R).
Let n := (M + 1)%nat.
Let aa := E s t.
Let bb := E (S s) t.
Hypothesis HM10 : (M <= 10)%nat.
Hypothesis Hab : aa < bb.
Hypothesis Ha : is_derive (E s) t da.
Hypothesis Hb : is_derive (E (S s)) t db.
Variables (e : nat -> R -> R) (e' y1 y2 rho : nat -> R) (mu sg vl vr : R).
Hypothesis He' : forall j, (j < n)%nat -> is_derive (e j) t (e' j).
Let u := fun j => e j t.
Let psi (v : nat -> R) := field Sphere M v aa bb.
Hypothesis EU : forall i, (i < n)%nat -> dotv n (rgram aa bb) e' i =
   - (basis Sphere i bb aa bb * (bb ^ 2 * (mu - db) * vr) - basis Sphere i aa aa bb * (aa ^ 2 * (mu - da) * vl))
   + mu * dotv n (Lx aa bb) u i - dotv n (Jx aa bb) y1 i + dotv n (Gx aa bb da db) u i - dotv n (M'x aa bb da db) u i
   + sg * dotv n (rgram aa bb) y2 i - dotv n (rgram aa bb) u i + rho i.

Lemma sq_dt_gen : is_derive (sq_content M E e s) t
   (sumn n (fun i => u i * dotv n (M'x aa bb da db) u i) + 2 * sumn n (fun i => u i * dotv n (rgram aa bb) e' i)).
Proof.
  apply (dd_loc (fun w => sumn n (fun i => e i w * sumn n (fun j => Mform i j (E s w) (E (S s) w) / PI * e j w)))).
  - generalize (locally_lt _ _ t _ _ Ha Hb Hab). apply filter_imp. intros w Hw. symmetry.
    apply int_uniq. pose (F := field Sphere M (fun j => e j w) (E s w) (E (S s) w)).
    apply (int_ext (fun x => x ^ 2 * F x * F x)); [intros; unfold F; ring|].
    apply (int_bil (fun x => x ^ 2) (fun i x => basis Sphere i x (E s w) (E (S s) w)) M (fun j => e j w) (fun j => e j w) _ _ (fun i j => Mform i j (E s w) (E (S s) w) / PI)).
    intros i j _ _. now apply mass_is.
  - eapply dd_eq.
    + apply dd_sumn. intros i Hi. apply dd_mult; [apply He'; auto|]. apply dd_sumn. intros j Hj.
      apply dd_mult; [apply dd_divc; apply (Mform_dt (E s) (E (S s)) t da db); auto|apply He'; auto].
    + cbv beta. fold aa bb.
      transitivity (sumn n (fun i => e' i * dotv n (rgram aa bb) u i) + (sumn n (fun i => u i * dotv n (M'x aa bb da db) u i) + sumn n (fun i => u i * dotv n (rgram aa bb) e' i))).
      * rewrite <- !sumn_plus. apply sumn_ext. intros i Hi. unfold u. f_equal.
        -- f_equal. unfold dotv. apply sumn_ext. intros j Hj. now rewrite gram_form.
        -- rewrite sumn_plus, Rmult_plus_distr_l. f_equal. f_equal. unfold dotv. apply sumn_ext. intros j Hj. now rewrite gram_form.
      * rewrite (bil_sym n (rgram aa bb) e' u) by (intros; apply gram_sym). ring.
Qed.

Lemma cell_energy_gen : is_derive (sq_content M E e s) t
   (aa ^ 2 * (mu - da) * (2 * vl * psi u aa - psi u aa ^ 2) - bb ^ 2 * (mu - db) * (2 * vr * psi u bb - psi u bb ^ 2)
    - 2 * mu * RInt (fun x => x * psi u x ^ 2) aa bb
    - 2 * RInt (fun x => x * psi u x * psi y1 x) aa bb
    + 2 * sg * RInt (fun x => x ^ 2 * psi u x * psi y2 x) aa bb
    - 2 * RInt (fun x => x ^ 2 * psi u x ^ 2) aa bb
    + 2 * sumn n (fun i => u i * rho i)).
Proof.
  eapply dd_eq; [apply sq_dt_gen|].
  rewrite (sumn_ext n (fun i => u i * dotv n (rgram aa bb) e' i) _ (fun i Hi => f_equal (Rmult (u i)) (EU i Hi))).
  rewrite (sumn_ext n (fun i => u i * (- (basis Sphere i bb aa bb * (bb ^ 2 * (mu - db) * vr) - basis Sphere i aa aa bb * (aa ^ 2 * (mu - da) * vl))
     + mu * dotv n (Lx aa bb) u i - dotv n (Jx aa bb) y1 i + dotv n (Gx aa bb da db) u i - dotv n (M'x aa bb da db) u i
     + sg * dotv n (rgram aa bb) y2 i - dotv n (rgram aa bb) u i + rho i))
    (fun i => - (bb ^ 2 * (mu - db) * vr) * (u i * basis Sphere i bb aa bb) + (aa ^ 2 * (mu - da) * vl) * (u i * basis Sphere i aa aa bb)
     + mu * (u i * dotv n (Lx aa bb) u i) + (-1) * (u i * dotv n (Jx aa bb) y1 i)
     + (u i * dotv n (Gx aa bb da db) u i) + (-1) * (u i * dotv n (M'x aa bb da db) u i)
     + sg * (u i * dotv n (rgram aa bb) y2 i) + (-1) * (u i * dotv n (rgram aa bb) u i) + u i * rho i)) by (intros; ring).
  rewrite !sumn_plus, !sumn_scal.
  change (sumn n (fun i => u i * basis Sphere i bb aa bb)) with (psi u bb).
  change (sumn n (fun i => u i * basis Sphere i aa aa bb)) with (psi u aa).
  assert (EL : 2 * sumn n (fun i => u i * dotv n (Lx aa bb) u i) = bb ^ 2 * psi u bb ^ 2 - aa ^ 2 * psi u aa ^ 2 - 2 * RInt (fun x => x * psi u x ^ 2) aa bb).
  { eapply int_uniq2.
    - apply int_scal. apply (int_bil (fun r => r ^ 2) (fun i r => Derive (fun y => basis Sphere i y aa bb) r)). intros i j Hi Hj. now apply Lx_is.
    - apply (int_ext (fun x => x ^ 2 * (2 * (psi u x * dfield M u aa bb x)))); [intros; unfold dfield, psi; ring|].
      apply (ibp2 (fun x => psi u x ^ 2)).
      + intros x. apply (dd_ext (fun x => psi u x * psi u x)); [intros; ring|]. eapply dd_eq; [apply dd_mult; apply dfield_ok; auto|]. unfold psi. cbv beta. ring.
      + intros x. apply cmult; [apply cconst|]. apply cmult; [now apply sph_field_cont|now apply dfield_cont]. }
  assert (EJ : sumn n (fun i => u i * dotv n (Jx aa bb) y1 i) = RInt (fun x => x * psi u x * psi y1 x) aa bb).
  { symmetry. apply int_uniq. apply (int_bil (fun r => r) (fun i r => basis Sphere i r aa bb)). intros i j Hi Hj. now apply Jx_is. }
  assert (EA : sumn n (fun i => u i * dotv n (rgram aa bb) u i) = RInt (fun x => x ^ 2 * psi u x ^ 2) aa bb).
  { symmetry. apply int_uniq. apply (int_ext (fun x => x ^ 2 * psi u x * psi u x)); [intros; ring|].
    apply (int_bil (fun r => r ^ 2) (fun i r => basis Sphere i r aa bb)). intros i j Hi Hj. now apply gram_is. }
  assert (EP : sumn n (fun i => u i * dotv n (rgram aa bb) y2 i) = RInt (fun x => x ^ 2 * psi u x * psi y2 x) aa bb).
  { symmetry. apply int_uniq. apply (int_bil (fun r => r ^ 2) (fun i r => basis Sphere i r aa bb)). intros i j Hi Hj. now apply gram_is. }
  assert (EG' : sumn n (fun i => u i * dotv n (M'x aa bb da db) u i) = 2 * sumn n (fun i => u i * dotv n (Gx aa bb da db) u i) + (bb ^ 2 * psi u bb ^ 2 * db - aa ^ 2 * psi u aa ^ 2 * da)).
  { set (G := Gx aa bb da db). rewrite (sumn_ext n (fun i => u i * dotv n (M'x aa bb da db) u i)
      (fun i => u i * dotv n G u i + (u i * dotv n (fun i j => G j i) u i + (bb ^ 2 * db * psi u bb * (u i * basis Sphere i bb aa bb) + - (aa ^ 2 * da * psi u aa) * (u i * basis Sphere i aa aa bb))))).
    - rewrite !sumn_plus, !sumn_scal.
      change (sumn n (fun i => u i * basis Sphere i bb aa bb)) with (psi u bb).
      change (sumn n (fun i => u i * basis Sphere i aa aa bb)) with (psi u aa).
      replace (sumn n (fun i => u i * dotv n (fun i j => G j i) u i)) with (sumn n (fun i => u i * dotv n G u i)); [ring|].
      unfold dotv. rewrite (sumn_ext n (fun i => u i * sumn n (fun j => G i j * u j)) (fun i => sumn n (fun j => u i * (G i j * u j)))) by (intros; now rewrite <- sumn_scal).
      rewrite sumn_swap. apply sumn_ext. intros j _. rewrite <- sumn_scal. apply sumn_ext. intros; ring.
    - intros i Hi.
      transitivity (u i * (dotv n G u i + dotv n (fun i j => G j i) u i + (bb ^ 2 * db * basis Sphere i bb aa bb * psi u bb - aa ^ 2 * da * basis Sphere i aa aa bb * psi u aa))); [|ring].
      f_equal. unfold psi, field. fold n. unfold dotv. rewrite <- !sumn_scal, <- !sumn_plus, <- sumn_minus, <- sumn_plus. apply sumn_ext. intros j Hj.
      unfold G. rewrite rate_split by (unfold n in *; (lia || auto)). ring. }
  rewrite EG', EJ, EA, EP.
  set (GU := sumn n (fun i => u i * dotv n (Gx aa bb da db) u i)). set (LU := sumn n (fun i => u i * dotv n (Lx aa bb) u i)) in *.
  set (SU := sumn n (fun i => u i * rho i)). clearbody GU LU SU.
  revert EL. generalize (RInt (fun x => x * psi u x ^ 2) aa bb) (RInt (fun x => x * psi u x * psi y1 x) aa bb) (RInt (fun x => x ^ 2 * psi u x ^ 2) aa bb)
    (RInt (fun x => x ^ 2 * psi u x * psi y2 x) aa bb).
  intros I1 I2 I3 I4 EL.
  replace LU with ((bb ^ 2 * psi u bb ^ 2 - aa ^ 2 * psi u aa ^ 2 - 2 * I1) / 2) by lra. field.
Qed.
End En.
