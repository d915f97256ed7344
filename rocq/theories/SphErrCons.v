(** The projected exact solution solves the scheme up to defects; the error solves it with the defects as sources. *)
From Coq Require Import ZArith QArith Qreals.
From Coquelicot Require Import Coquelicot.
From Verif Require Import Py PyLemmas Calc Legendre Cheb DGModel DGSpec DGProofs DGInt DGBalance DGFinal GmatModel FuncLobatto MatModel RhsModel RhsProofs
  SpherePoly SphereProofs SphereBal SphereWeak SphereThms PosDef SphMass SphUnif SphEnergy SphSpec SphStab ErrSpec ErrLeib ErrProofs SphErrSpec SphErrProj SphErrEn.
Open Scope R_scope.

Lemma cont_sumn m (g : nat -> R -> R) x : (forall l, (l < m)%nat -> continuous (g l) x) -> continuous (fun y => sumn m (fun l => g l y)) x.
Proof. induction m as [|m IH]; intros H; cbn [sumn]; [apply cconst|]. apply cplus; [apply IH; auto|apply H; lia]. Qed.
Lemma aterm_cont N x a (f : nat -> R -> R) y : (forall l, continuous (f l) y) -> continuous (fun y => aterm N x (fun l => f l y) a) y.
Proof.
  intros CP. unfold aterm, finite_diff_uneven. cbv zeta. destruct (negb _ && negb _); [|destruct (a =? 0)%nat]; apply cdivc.
  - apply cminus; (apply cmult; [apply cconst|]); (apply cmult; [apply cconst|]); apply cplus; apply CP.
  - apply cmult; [apply cconst|]. apply cmult; [apply cconst|]. apply cplus; apply CP.
  - apply cmult; [apply cconst|]. apply cmult; [apply cconst|]. apply cplus; apply CP.
Qed.
Lemma dbasis_dx_field M i a b : a < b -> (i <= M)%nat -> exists u, forall x, Derive (fun y => basis Sphere i y a b) x = field Sphere M u a b x.
Proof.
  intros H Hi. set (q := fun z => sqrt (cn i / (PI * (b - a))) * (2 / (b - a)) * dcheb i z + 0 * dcheb i z).
  destruct (cspan_field M q a b H) as (u & Hu).
  { apply deg_lin; apply (deg_mono (i - 1)); try lia; apply deg_dcheb. }
  exists u. intros x. rewrite <- Hu. unfold q. rewrite (is_derive_unique (fun y : R => basis Sphere i y a b) x _ (cbasis_dx i x a b H)). ring.
Qed.
Lemma dbasis_dt_field M i (a b : R -> R) t a' b' : is_derive a t a' -> is_derive b t b' -> a t < b t -> (i <= M)%nat ->
  exists u, forall x, Derive (fun w => basis Sphere i x (a w) (b w)) t = field Sphere M u (a t) (b t) x.
Proof.
  intros Ha Hb H Hi. set (h := b t - a t). set (k := sqrt (cn i / (PI * h))).
  set (q := fun z => k * (- (1 / 2) * ((b' - a') / h)) * cheb i z + 1 * (k * (- (a' + b') / h) * dcheb i z + - (k * ((b' - a') / h)) * (z * dcheb i z))).
  destruct (cspan_field M q (a t) (b t) H) as (u & Hu).
  { apply deg_lin; [apply (deg_mono i); [lia|apply deg_cheb]|]. apply deg_lin; [apply (deg_mono (i - 1)); [lia|apply deg_dcheb]|apply (deg_mono i); [lia|apply deg_zdcheb]]. }
  exists u. intros x. rewrite <- Hu. unfold q.
  rewrite (is_derive_unique (fun w : R => basis Sphere i x (a w) (b w)) t _ (cbasis_dt a b t a' b' Ha Hb H i x)). fold h k. ring.
Qed.

Section Cons.
Variables (c : rhs_cfg) (E : nat -> R -> R) (Q : nat -> R -> R -> R) (psi ang : nat -> nat -> R -> R -> R) (em : nat -> R -> R -> R) (t0 t1 : R).
Let fc := rflux c.
Let n := (fM fc + 1)%nat.
Let D := fun k t => r_Dedges c t k.
Hypothesis HM : mesh_c1 fc E D.
Hypothesis HX : sph_exact c E Q psi ang em t0 t1.
Variable t : R.
Hypothesis Ht : t0 <= t <= t1.
Hypothesis He : increasing (fN fc) (fun k => E k t).
(** coefficients of the projection *)
Definition ucoef (c : rhs_cfg) (E : nat -> R -> R) (psi : nat -> nat -> R -> R -> R) (l k j : nat) (w : R) : R := pc (E k) (E (S k)) (psi l k) (fM (rflux c)) j w.
Let Ut := fun l k j => ucoef c E psi l k j t.
Variables (a s : nat).
Hypothesis HA : (a < N_ang c)%nat.
Hypothesis Hs : (s < fN fc)%nat.
Let aa := E s t.
Let bb := E (S s) t.
Definition ares (i : nat) : R := RInt (fun x => x * adefect c E psi ang a s t x * basis Sphere i x (E s t) (E (S s) t)) (E s t) (E (S s) t).
Definition sres (i : nat) : R := RInt (fun x => x ^ 2 * sdefect c psi em s t x * basis Sphere i x (E s t) (E (S s) t)) (E s t) (E (S s) t).

Lemma psi_c l x : (l < N_ang c)%nat -> continuous (fun y => psi l s y t) x.
Proof. intros Hl. destruct (sx_eq _ _ _ _ _ _ _ _ HX l s Hl Hs) as (fx & ft & C & _). apply (c1_cont _ _ _ _ _ C). Qed.
Lemma rproj_c l x : continuous (fun y => rproj_at (fM fc) E (psi l s) s t y) x.
Proof. unfold rproj_at. apply sph_field_cont. exact (He s Hs). Qed.
Lemma adef_c x : continuous (fun y => adefect c E psi ang a s t y) x.
Proof.
  unfold adefect. apply cminus; [apply (sx_cont _ _ _ _ _ _ _ _ HX a s t x HA Hs Ht)|]. apply (aterm_cont _ _ _ (fun l y => rproj_at (fM (rflux c)) E (psi l s) s t y)).
  intros l. apply rproj_c.
Qed.
Lemma sdef_c x : continuous (fun y => sdefect c psi em s t y) x.
Proof.
  unfold sdefect. apply cminus; [apply (sx_cont _ _ _ _ _ _ _ _ HX a s t x HA Hs Ht)|]. apply (cont_sumn _ (fun l y => wsa c l * psi l s y t)). intros l Hl.
  apply cmult; [apply cconst|now apply psi_c].
Qed.

Lemma exact_update i : (i < n)%nat -> dotv n (rgram aa bb) (fun j => Derive (ucoef c E psi a s j) t) i =
   - (basis Sphere i bb aa bb * (bb ^ 2 * (mus c a - D (S s) t) * psi a s bb t) - basis Sphere i aa aa bb * (aa ^ 2 * (mus c a - D s t) * psi a s aa t))
   + mus c a * dotv n (Lx aa bb) (Ut a s) i - dotv n (Jx aa bb) (dterm c Ut s a) i + dotv n (Gx aa bb (D s t) (D (S s) t)) (Ut a s) i
   - dotv n (M'x aa bb (D s t) (D (S s) t)) (Ut a s) i + sigma_s c * dotv n (rgram aa bb) (make_P (N_ang c) (wsa c) (fun l j => Ut l s j)) i
   - dotv n (rgram aa bb) (Ut a s) i + 1 / 2 * sigma_s c * Src c t aa bb i - ares i + sigma_s c * sres i.
Proof.
  intros Hi. assert (Hab : aa < bb) by exact (He s Hs).
  destruct (sx_eq _ _ _ _ _ _ _ _ HX a s HA Hs) as (fx & ft & C & EQ). specialize (EQ t).
  destruct (rmom_dt (E s) (E (S s)) (D s) (D (S s)) (psi a s) fx ft (HM s ltac:(lia)) (HM (S s) ltac:(lia)) C i t Hab) as (I1 & I2 & J1 & J2 & Dp).
  pose proof (pc_rate (E s) (E (S s)) (D s) (D (S s)) (psi a s) fx ft (HM s ltac:(lia)) (HM (S s) ltac:(lia)) C (fM fc) i t Hab Hi) as Dq.
  pose proof (eq_trans (eq_sym (is_derive_unique _ _ _ Dq)) (is_derive_unique _ _ _ Dp)) as K. clear Dp Dq.
  change (pc (E s) (E (S s)) (psi a s) (fM fc)) with (ucoef c E psi a s) in K. fold n in K. fold aa bb in K, J1, J2, EQ.
  change (sumn n (fun j => M'form i j aa bb (D s t) (D (S s) t) / PI * ucoef c E psi a s j t)) with (dotv n (M'x aa bb (D s t) (D (S s) t)) (Ut a s) i) in K.
  assert (Cp : forall l, (l < N_ang c)%nat -> forall x, continuous (fun x => psi l s x t) x) by (intros; now apply psi_c).
  assert (Cfx : forall x, continuous (fun x => fx x t) x) by (intros x; apply cont_x, C).
  assert (CB : forall x, continuous (fun x => basis Sphere i x aa bb) x) by (intros; now apply sph_basis_cont).
  assert (CB' : forall x, continuous (fun x => Derive (fun y => basis Sphere i y aa bb) x) x) by (intros; now apply dbasis_cont).
  assert (PR : forall l, (l < N_ang c)%nat -> forall k, (k < n)%nat -> dotv n (rgram aa bb) (Ut l s) k = rmom (fun x => psi l s x t) aa bb k).
  { intros l Hl k Hk. unfold Ut, ucoef, pc. fold aa bb. now apply rproj_solves. }
  (* motion *)
  assert (V2 : I2 = dotv n (Gx aa bb (D s t) (D (S s) t)) (Ut a s) i).
  { destruct (dbasis_dt_field (fM fc) i (E s) (E (S s)) t (D s t) (D (S s) t)) as (u & Hu); [apply HM; lia|apply HM; lia|exact Hab|unfold n in Hi; lia|].
    assert (X : is_RInt (fun x => x ^ 2 * field Sphere (fM fc) u aa bb x * psi a s x t) aa bb I2).
    { eapply int_ext; [|exact J2]. intros x. cbv beta. rewrite Hu. fold aa bb. ring. }
    apply rproj_test in X; [|exact Hab|now apply Cp].
    apply (int_uniq2 _ _ _ _ _ X).
    apply (int_ext (fun x => x ^ 2 * Derive (fun w => basis Sphere i x (E s w) (E (S s) w)) t * field Sphere (fM fc) (Ut a s) aa bb x)).
    { intros x. rewrite Hu. reflexivity. }
    apply (int_dot (fun x => x ^ 2 * Derive (fun w => basis Sphere i x (E s w) (E (S s) w)) t)).
    intros j _. apply (cmotion_is (E s) (E (S s)) t (D s t) (D (S s) t)); [apply HM; lia|apply HM; lia|exact Hab]. }
  (* streaming *)
  set (IL := RInt (fun x => x ^ 2 * Derive (fun y => basis Sphere i y aa bb) x * psi a s x t) aa bb).
  assert (JL : is_RInt (fun x => x ^ 2 * Derive (fun y => basis Sphere i y aa bb) x * psi a s x t) aa bb IL).
  { apply int_val. intros x. apply cmult; [apply cmult; [apply cpow, cid|apply CB']|now apply Cp]. }
  assert (VL : IL = dotv n (Lx aa bb) (Ut a s) i).
  { destruct (dbasis_dx_field (fM fc) i aa bb Hab) as (u & Hu); [unfold n in Hi; lia|].
    assert (X : is_RInt (fun x => x ^ 2 * field Sphere (fM fc) u aa bb x * psi a s x t) aa bb IL).
    { eapply int_ext; [|exact JL]. intros x. cbv beta. rewrite Hu. ring. }
    apply rproj_test in X; [|exact Hab|now apply Cp].
    apply (int_uniq2 _ _ _ _ _ X).
    apply (int_ext (fun x => x ^ 2 * Derive (fun y => basis Sphere i y aa bb) x * field Sphere (fM fc) (Ut a s) aa bb x)).
    { intros x. rewrite Hu. reflexivity. }
    apply (int_dot (fun x => x ^ 2 * Derive (fun y => basis Sphere i y aa bb) x)).
    intros j _. now apply Lx_is. }
  assert (JF : is_RInt (fun x => (x ^ 2 * fx x t + 2 * x * psi a s x t) * basis Sphere i x aa bb + x ^ 2 * psi a s x t * Derive (fun y => basis Sphere i y aa bb) x) aa bb
                  (bb ^ 2 * psi a s bb t * basis Sphere i bb aa bb - aa ^ 2 * psi a s aa t * basis Sphere i aa aa bb)).
  { apply (int_ftc (fun x => x ^ 2 * psi a s x t * basis Sphere i x aa bb)).
    - intros x. eapply dd_eq; [apply (dd_mult (fun x => x ^ 2 * psi a s x t) (fun x => basis Sphere i x aa bb)); [|now apply dbasis_ok]|].
      + apply dd_mult; [apply (dd_ext (fun x => x * x)); [intros; ring|apply dd_mult; apply dd_id]|apply C].
      + cbv beta. ring.
    - intros x. apply cplus; [apply cmult; [|apply CB]|apply cmult; [|apply CB']].
      + apply cplus; [apply cmult; [apply cpow, cid|apply Cfx]|]. apply cmult; [apply cmult; [apply cconst|apply cid]|now apply Cp].
      + apply cmult; [apply cpow, cid|now apply Cp]. }
  (* angle *)
  assert (JA : is_RInt (fun x => x * ang a s x t * basis Sphere i x aa bb) aa bb (ares i + dotv n (Jx aa bb) (dterm c Ut s a) i)).
  { apply (int_ext (fun x => x * adefect c E psi ang a s t x * basis Sphere i x aa bb + x * basis Sphere i x aa bb * field Sphere (fM fc) (dterm c Ut s a) aa bb x)).
    { intros x. unfold adefect.
      replace (field Sphere (fM fc) (dterm c Ut s a) aa bb x) with (aterm (N_ang c) (mus c) (fun l => rproj_at (fM (rflux c)) E (psi l s) s t x) a); [ring|].
      unfold rproj_at, field. rewrite <- aterm_field. reflexivity. }
    apply int_plus.
    - unfold ares. fold aa bb. apply int_val. intros x. apply cmult; [apply cmult; [apply cid|apply adef_c]|apply CB].
    - apply (int_dot (fun x => x * basis Sphere i x aa bb)). intros j _. now apply Jx_is. }
  (* scattering *)
  assert (JS : is_RInt (fun x => x ^ 2 * em s x t * basis Sphere i x aa bb) aa bb (sres i + dotv n (rgram aa bb) (make_P (N_ang c) (wsa c) (fun l j => Ut l s j)) i)).
  { apply (int_ext (fun x => x ^ 2 * sdefect c psi em s t x * basis Sphere i x aa bb + sumn (N_ang c) (fun l => wsa c l * (x ^ 2 * psi l s x t * basis Sphere i x aa bb)))).
    { intros x. unfold sdefect. rewrite (sumn_ext (N_ang c) (fun l => wsa c l * (x ^ 2 * psi l s x t * basis Sphere i x aa bb)) (fun l => x ^ 2 * basis Sphere i x aa bb * (wsa c l * psi l s x t))) by (intros; ring).
      rewrite sumn_scal. ring. }
    apply int_plus.
    - unfold sres. fold aa bb. apply int_val. intros x. apply cmult; [apply cmult; [apply cpow, cid|apply sdef_c]|apply CB].
    - eapply int_eq.
      + apply int_sumn. intros l Hl. apply int_scal. apply rmom_is; [exact Hab|now apply Cp].
      + unfold make_P. rewrite (sumn_ext (N_ang c) _ (fun l => wsa c l * dotv n (rgram aa bb) (Ut l s) i)) by (intros l Hl; now rewrite PR).
        unfold dotv. rewrite (sumn_ext (N_ang c) _ (fun l => sumn n (fun j => rgram aa bb i j * (Ut l s j * wsa c l)))) by (intros; rewrite <- sumn_scal; apply sumn_ext; intros; ring).
        rewrite sumn_swap. apply sumn_ext. intros j _. now rewrite sumn_scal. }
  assert (JQ : is_RInt (fun x => x ^ 2 * Q s x t * basis Sphere i x aa bb) aa bb (Src c t aa bb i)).
  { replace (Src c t aa bb i) with (RInt (fun x => x ^ 2 * Q s x t * basis Sphere i x aa bb) aa bb).
    2: { symmetry. apply (sx_src _ _ _ _ _ _ _ _ HX s t i Hs); auto. unfold n, fc in Hi. lia. }
    apply int_val. intros x. apply cmult; [apply cmult; [apply cpow, cid|]|apply CB]. apply (sx_cont _ _ _ _ _ _ _ _ HX a s t x HA Hs Ht). }
  assert (JP : is_RInt (fun x => x ^ 2 * psi a s x t * basis Sphere i x aa bb) aa bb (dotv n (rgram aa bb) (Ut a s) i)).
  { rewrite (PR a HA i Hi). exact (rmom_is (fun x => psi a s x t) aa bb i Hab (Cp a HA)). }
  assert (V1 : I1 = - mus c a * (bb ^ 2 * psi a s bb t * basis Sphere i bb aa bb - aa ^ 2 * psi a s aa t * basis Sphere i aa aa bb - IL)
     - (ares i + dotv n (Jx aa bb) (dterm c Ut s a) i) - dotv n (rgram aa bb) (Ut a s) i
     + sigma_s c * (sres i + dotv n (rgram aa bb) (make_P (N_ang c) (wsa c) (fun l j => Ut l s j)) i) + 1 / 2 * sigma_s c * Src c t aa bb i).
  { apply (int_uniq2 _ _ _ _ _ J1).
    eapply int_ext_on; [apply Rlt_le, Hab| |apply (int_plus _ _ _ _ _ _ (int_plus _ _ _ _ _ _ (int_minus _ _ _ _ _ _ (int_minus _ _ _ _ _ _
       (int_scal _ (- mus c a) _ _ _ (int_minus _ _ _ _ _ _ JF JL)) JA) JP) (int_scal _ (sigma_s c) _ _ _ JS)) (int_scal _ (1 / 2 * sigma_s c) _ _ _ JQ))].
    intros x Hx. cbv beta.
    replace (x ^ 2 * ft x t) with (x ^ 2 * (sigma_s c * em s x t + 1 / 2 * sigma_s c * Q s x t) - mus c a * (x ^ 2 * fx x t + 2 * x * psi a s x t) - x * ang a s x t - x ^ 2 * psi a s x t) by (rewrite <- EQ by lra; ring).
    ring. }
  rewrite V1, V2, VL in K. fold aa bb in K. unfold dotv at 1 in K. unfold dotv at 1.
  set (X1 := sumn n (fun j => rgram aa bb i j * Derive (ucoef c E psi a s j) t)) in *.
  set (X2 := sumn n (fun j => M'x aa bb (D s t) (D (S s) t) i j * Ut a s j)) in *.
  change (dotv n (rgram aa bb) (fun j => Derive (ucoef c E psi a s j) t) i) with X1 in K.
  change (dotv n (M'x aa bb (D s t) (D (S s) t)) (Ut a s) i) with X2.
  lra.
Qed.
End Cons.
