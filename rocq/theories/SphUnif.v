(** The spherical update of a uniform isotropic field. *)
From Coq Require Import ZArith QArith Qreals.
From Coquelicot Require Import Coquelicot.
From Verif Require Import Py PyLemmas Calc Legendre Cheb DGModel DGSpec DGProofs DGInt DGBalance DGFinal GmatModel MatModel RhsModel RhsProofs
  SpherePoly SphereProofs SphereBal SphereWeak SphereThms PosDef SphMass.
Open Scope R_scope.

(** how far a direction is from the middle of its angular cell *)
Definition offset (N : nat) (x : nat -> R) (a : nat) : R := (aedge N x a + aedge N x (S a)) / 2 - x a.
(** expansion coefficients of the constant c0 on a cell of width h *)
Definition ucoef (c0 h : R) (j : nat) : R := if (j =? 0)%nat then c0 * sqrt (PI * h) else 0.

Lemma ucoef_field M c0 a b x : a < b -> field Sphere M (ucoef c0 (b - a)) a b x = c0.
Proof.
  intros H. unfold field. rewrite (sumn_single (M + 1) _ 0); [|lia|].
  - unfold ucoef. cbn [Nat.eqb]. pose proof (basis0_edge Sphere x a b H) as Hb. cbn [kap] in Hb.
    rewrite sqrt_mult by (try lra; left; apply PI_RGT_0).
    transitivity (c0 * (sqrt PI * sqrt (b - a) * basis Sphere 0 x a b)); [ring|rewrite Hb; ring].
  - intros j _ N. unfold ucoef. destruct (Nat.eqb_spec j 0); [congruence|ring].
Qed.
Lemma dotv_ucoef n A c0 h i : (0 < n)%nat -> dotv n A (ucoef c0 h) i = A i 0%nat * (c0 * sqrt (PI * h)).
Proof.
  intros Hn. unfold dotv. rewrite (sumn_single n _ 0); auto.
  intros j _ N. unfold ucoef. destruct (Nat.eqb_spec j 0); [congruence|ring].
Qed.
Lemma aterm_scal N x k psi a : aterm N x (fun l => k * psi l) a = k * aterm N x psi a.
Proof. unfold aterm, finite_diff_uneven. cbv zeta. destruct (negb _ && negb _); [|destruct (a =? 0)%nat]; unfold Rdiv; ring. Qed.
Lemma aterm_ext N x psi psi' a : (2 <= N)%nat -> (a < N)%nat -> (forall l, (l < N)%nat -> psi l = psi' l) -> aterm N x psi a = aterm N x psi' a.
Proof.
  intros HN Ha H. unfold aterm, finite_diff_uneven. cbv zeta.
  destruct (Nat.eqb_spec a 0) as [Z|Z]; cbn [negb andb]; [rewrite !H by lia; reflexivity|].
  destruct (Nat.eqb_spec a (N - 1)) as [Y|Y]; cbn [negb andb]; rewrite !H by lia; reflexivity.
Qed.
Lemma aterm_const N x v a : (2 <= N)%nat -> directions N x -> (a < N)%nat -> aterm N x (fun _ => v) a = - (aedge N x a + aedge N x (S a)) * v.
Proof.
  intros HN H Ha. transitivity (aterm N x (fun l => v * (fun _ => 1) l) a). { f_equal. apply FunctionalExtensionality.functional_extensionality. intros; ring. }
  rewrite aterm_scal, isotropic by auto. ring.
Qed.

(** integration by parts of the streaming term *)
Lemma ibp2 (f f' : R -> R) a b : (forall x, is_derive f x (f' x)) -> (forall x, continuous f' x) ->
  is_RInt (fun x => x ^ 2 * f' x) a b (b ^ 2 * f b - a ^ 2 * f a - 2 * RInt (fun x => x * f x) a b).
Proof.
  intros Df Cf'.
  assert (Cf : forall x, continuous f x) by (intros x; apply (ex_derive_continuous f); eexists; apply Df).
  assert (C1 : forall x, continuous (fun x => x * f x) x) by (intros; apply cmult; [apply cid|auto]).
  apply (int_ext (fun x => (x ^ 2 * f' x + 2 * (x * f x)) - 2 * (x * f x))); [intros; ring|].
  apply int_minus; [|apply int_scal, int_val; auto].
  apply (int_ftc (fun x => x ^ 2 * f x)).
  - intros x. eapply dd_eq; [apply dd_mult; [|apply Df]|].
    + apply (dd_ext (fun x => x * x)); [intros; ring|]. apply dd_mult; apply dd_id.
    + cbv beta. ring.
  - intros x. apply cplus; [apply cmult; [apply cpow, cid|auto]|apply cmult; [apply cconst|auto]].
Qed.
Lemma dbasis_cont i a b : a < b -> forall x, continuous (fun x => Derive (fun y => basis Sphere i y a b) x) x.
Proof.
  intros H x. apply (continuous_ext (fun x => sqrt (cn i / (PI * (b - a))) * (2 / (b - a) * dcheb i (refz x a b)))).
  - intros y. symmetry. apply is_derive_unique. now apply cbasis_dx.
  - apply cmult; [apply cconst|apply cmult; [apply cconst|]]. apply (ccomp (dcheb i) (fun x => refz x a b)); [|apply pev_cont].
    unfold refz. apply cdivc. apply cminus; [apply cminus; [apply cmult; [apply cconst|apply cid]|apply cconst]|apply cconst].
Qed.
Lemma dbasis_ok i a b : a < b -> forall x, is_derive (fun y => basis Sphere i y a b) x (Derive (fun y => basis Sphere i y a b) x).
Proof. intros H x. apply Derive_correct. eexists. now apply cbasis_dx. Qed.
Lemma ibp_stream i a b : a < b ->
  is_RInt (fun x => x ^ 2 * Derive (fun y => basis Sphere i y a b) x) a b
   (b ^ 2 * basis Sphere i b a b - a ^ 2 * basis Sphere i a a b - 2 * RInt (fun x => x * basis Sphere i x a b) a b).
Proof. intros H. apply (ibp2 (fun x => basis Sphere i x a b)); [now apply dbasis_ok|now apply dbasis_cont]. Qed.

Section U.
Variables (c : rhs_cfg) (t : R) (E : nat -> R -> R) (V : nat -> nat -> nat -> R) (st : nat -> flux_state) (c0 : R).
Let fc := rflux c.
Let n := (fM fc + 1)%nat.
Let D := r_Dedges c t.
Hypothesis Hg : fgeom fc = Sphere.
Hypothesis HN : (2 <= fN fc)%nat.
Hypothesis HE : forall k, r_edges c t k = E k t.
Hypothesis He : increasing (fN fc) (fun k => E k t).
Hypothesis HD : forall k, (k <= fN fc)%nat -> is_derive (E k) t (D k).
Hypothesis HA : (2 <= N_ang c)%nat.
Hypothesis Hdir : directions (N_ang c) (mus c).
Hypothesis HU : forall l k j, (l < N_ang c)%nat -> (k < fN fc)%nat -> (j < n)%nat -> V l k j = ucoef c0 (E (S k) t - E k t) j.
Hypothesis H0 : E 0%nat t = 0.
Variables (s : nat) (W : nat -> nat -> R).
Hypothesis Hs : (S s < fN fc)%nat.
Let aa := E s t.
Let bb := E (S s) t.
Hypothesis HW : rhs_space c st t V s = Ok W.
Hypothesis HM : mass_exact (tabs c) n aa bb.
Hypothesis HJ : J_exact (tabs c) n aa bb.
Hypothesis HL : L_exact (tabs c) n aa bb.
Hypothesis Hinv : inverts n (make_mass_sphere (tabs c) aa bb) (inv c (make_mass_sphere (tabs c) aa bb)).
Variable a : nat.
Hypothesis Ha : (a < N_ang c)%nat.

Lemma u_face refl f v : (0 < f < fN fc)%nat -> face fc t (fun k => E k t) D (V a) (mus c a) refl f v -> v = c0.
Proof.
  intros Hf F. inversion F as [v1 A1 B1 E1|f1 A1 B1 E1|f1 A1 B1 E1|v1 A1 B1 E1]; subst; try lia.
  - rewrite Hg. transitivity (field Sphere (fM fc) (ucoef c0 (E (S f1) t - E f1 t)) (E f1 t) (E (S f1) t) (E (S f1) t)).
    + unfold field. apply sumn_ext. intros j Hj. rewrite HU by (auto; lia). reflexivity.
    + apply ucoef_field. apply He. lia.
  - rewrite Hg. transitivity (field Sphere (fM fc) (ucoef c0 (E (S f) t - E f t)) (E f t) (E (S f) t) (E f t)).
    + unfold field. apply sumn_ext. intros j Hj. rewrite HU by (auto; lia). reflexivity.
    + apply ucoef_field. apply He. lia.
Qed.
(** the rate of the coefficients of the same constant on the moving cell *)
Lemma ucoef_dt j : (S s <= fN fc)%nat -> is_derive (fun w => ucoef c0 (E (S s) w - E s w) j) t
   ((D (S s) - D s) / (2 * (bb - aa)) * ucoef c0 (bb - aa) j).
Proof.
  intros Hs'. unfold ucoef. destruct (j =? 0)%nat; [|eapply dd_eq; [apply dd_const|ring]].
  assert (Hab : aa < bb) by (apply He; lia). pose proof PI_RGT_0 as HP.
  assert (P : 0 < PI * (bb - aa)) by (apply Rmult_lt_0_compat; lra).
  eapply dd_eq.
  - apply dd_scal. apply (dd_sqrt (fun w => PI * (E (S s) w - E s w))); [|exact P].
    apply dd_scal, dd_minus; apply HD; lia.
  - cbv beta. fold aa bb. assert (Q : 0 < sqrt (PI * (bb - aa))) by (apply sqrt_lt_R0; auto).
    pose proof (sqrt_sqrt (PI * (bb - aa)) ltac:(lra)) as SS. revert SS Q. generalize (sqrt (PI * (bb - aa))). intros q SS Q.
    apply Rmult_eq_reg_l with (2 * q); [|lra]. 
    transitivity (c0 * (PI * (D (S s) - D s))); [field; lra|].
    transitivity (c0 * (q * q) * ((D (S s) - D s) / (bb - aa))); [rewrite SS; field; lra|field; lra].
Qed.
Definition urate (j : nat) : R := (D (S s) - D s) / (2 * (bb - aa)) * ucoef c0 (bb - aa) j.

Lemma u_update i : (i < n)%nat ->
  dotv n (make_mass_sphere (tabs c) aa bb) (fun j => W a j - urate j) i
  = c0 * (2 * offset (N_ang c) (mus c) a * RInt (fun x => x * basis Sphere i x aa bb) aa bb
      + (sigma_s c * sumn (N_ang c) (wsa c) - 1) * RInt (fun x => x ^ 2 * basis Sphere i x aa bb) aa bb)
    + 1 / 2 * sigma_s c * Src c t aa bb i.
Proof.
  intros Hi. assert (Hab : aa < bb) by (apply He; lia). assert (Hn : (0 < n)%nat) by (unfold n; lia).
  destruct (mass_update c t E (fun l k j _ => V l k j) st Hg HN HE He s W (Nat.lt_trans _ _ _ (Nat.lt_succ_diag_r s) Hs) HW Hinv a i Hi)
    as (vl & vr & G & MPR & F1 & F2 & EG & EM & EU).
  fold fc n D aa bb in F1, F2, EG, EM, EU. rewrite dotv_minus, EU.
  apply u_face in F2; [|lia]. subst vr.
  replace (aa ^ 2 * (mus c a - D s) * vl) with (aa ^ 2 * (mus c a - D s) * c0).
  2: { destruct (Nat.eq_dec s 0) as [Z|Z].
       - unfold aa. rewrite Z, H0. ring.
       - apply u_face in F1; [now subst vl|lia]. }
  assert (EV : forall l j, (l < N_ang c)%nat -> (j < n)%nat -> V l s j = ucoef c0 (bb - aa) j) by (intros; apply HU; auto; lia).
  set (q := c0 * sqrt (PI * (bb - aa))).
  assert (B0 : forall x, q * basis Sphere 0 x aa bb = c0).
  { intros x. pose proof (basis0_edge Sphere x aa bb Hab) as Hb. cbn [kap] in Hb. unfold q.
    rewrite sqrt_mult by (try lra; left; apply PI_RGT_0). transitivity (c0 * (sqrt PI * sqrt (bb - aa) * basis Sphere 0 x aa bb)); [ring|rewrite Hb; ring]. }
  assert (X : forall A, dotv n A (fun j => V a s j) i = A i 0%nat * q).
  { intros A. rewrite (dotv_ext n A A _ (ucoef c0 (bb - aa))) by auto. rewrite dotv_ucoef by auto. reflexivity. }
  rewrite !X.
  replace (dotv n (make_J_sphere (tabs c) aa bb) (dterm c (fun l k j => V l k j) s a) i)
    with (- (aedge (N_ang c) (mus c) a + aedge (N_ang c) (mus c) (S a)) * (make_J_sphere (tabs c) aa bb i 0%nat * q)).
  2: { rewrite (dotv_ext n _ (make_J_sphere (tabs c) aa bb) (dterm c (fun l k j => V l k j) s a)
         (fun j => - (aedge (N_ang c) (mus c) a + aedge (N_ang c) (mus c) (S a)) * ucoef c0 (bb - aa) j)); auto.
       - rewrite dotv_scal, dotv_ucoef by auto. reflexivity.
       - intros j Hj. change (dterm c (fun l k j => V l k j) s a j) with (aterm (N_ang c) (mus c) (fun l => V l s j) a).
         rewrite <- (aterm_const (N_ang c) (mus c)) by auto. apply aterm_ext; auto. }
  replace (dotv n (make_mass_sphere (tabs c) aa bb) (make_P (N_ang c) (wsa c) (fun l j => V l s j)) i)
    with (sumn (N_ang c) (wsa c) * (make_mass_sphere (tabs c) aa bb i 0%nat * q)).
  2: { rewrite (dotv_ext n _ (make_mass_sphere (tabs c) aa bb) (make_P (N_ang c) (wsa c) (fun l j => V l s j))
         (fun j => sumn (N_ang c) (wsa c) * ucoef c0 (bb - aa) j)); auto.
       - rewrite dotv_scal, dotv_ucoef by auto. reflexivity.
       - intros j Hj. unfold make_P. rewrite <- sumn_scal_r. apply sumn_ext. intros l Hl. rewrite EV by auto. ring. }
  replace (dotv n (make_mass_sphere (tabs c) aa bb) urate i) with ((D (S s) - D s) / (2 * (bb - aa)) * (make_mass_sphere (tabs c) aa bb i 0%nat * q)).
  2: { unfold urate. rewrite dotv_scal, dotv_ucoef by auto. reflexivity. }
  assert (EMs : make_mass_sphere (tabs c) aa bb i 0 * q = c0 * RInt (fun x => x ^ 2 * basis Sphere i x aa bb) aa bb).
  { symmetry. eapply int_uniq2; [apply int_scal, int_val|].
    - intros x. apply cmult; [apply cpow, cid|now apply sph_basis_cont].
    - apply (int_ext (fun x => q * (x ^ 2 * basis Sphere i x aa bb * basis Sphere 0 x aa bb))).
      + intros x. rewrite <- (B0 x). ring.
      + rewrite Rmult_comm. apply int_scal, HM; auto. }
  assert (EJs : make_J_sphere (tabs c) aa bb i 0 * q = c0 * RInt (fun x => x * basis Sphere i x aa bb) aa bb).
  { symmetry. eapply int_uniq2; [apply int_scal, int_val|].
    - intros x. apply cmult; [apply cid|now apply sph_basis_cont].
    - apply (int_ext (fun x => q * (x * basis Sphere i x aa bb * basis Sphere 0 x aa bb))).
      + intros x. rewrite <- (B0 x). ring.
      + rewrite Rmult_comm. apply int_scal, HJ; auto. }
  assert (ELs : make_L_sphere (tabs c) aa bb i 0 * q = c0 * (bb ^ 2 * basis Sphere i bb aa bb - aa ^ 2 * basis Sphere i aa aa bb - 2 * RInt (fun x => x * basis Sphere i x aa bb) aa bb)).
  { symmetry. eapply int_uniq2; [apply int_scal, ibp_stream; auto|].
    apply (int_ext (fun x => q * (x ^ 2 * Derive (fun y => basis Sphere i y aa bb) x * basis Sphere 0 x aa bb))).
    + intros x. rewrite <- (B0 x). ring.
    + rewrite Rmult_comm. apply int_scal, HL; auto. }
  destruct (over_pi_inv n _ G EG i 0 Hi Hn) as (g1 & Eg1 & EG1). destruct (over_pi_inv n _ G EG 0 i Hn Hi) as (g2 & Eg2 & EG2).
  destruct (over_pi_inv n _ MPR EM i 0 Hi Hn) as (g3 & Eg3 & EM3).
  pose proof (C22_mass_rate_consistent_with_motion i 0 aa bb (D s) (D (S s)) g1 g2 g3 Hab Eg1 Eg2 Eg3) as K.
  rewrite <- EG1, <- EM3 in K.
  assert (K2 : g2 / PI * q = - ((D (S s) - D s) / (2 * (bb - aa)) * (make_mass_sphere (tabs c) aa bb i 0%nat * q))).
  { apply G_entry in Eg2; [|lra]. rewrite Eg2, G_row0 by auto.
    assert (MM : Mform 0 i aa bb / PI = make_mass_sphere (tabs c) aa bb i 0%nat).
    { eapply int_uniq2; [now apply mass_is|]. eapply int_ext; [|apply (HM i 0%nat); auto]. intros; cbv beta; ring. }
    rewrite <- MM. field. split; (apply PI_neq0 || lra). }
  rewrite EM3 in *. 
  assert (K3 : MPR i 0%nat * q = G i 0%nat * q + g2 / PI * q + c0 * (bb ^ 2 * basis Sphere i bb aa bb * D (S s) - aa ^ 2 * basis Sphere i aa aa bb * D s)).
  { rewrite EM3, K. pose proof (B0 bb) as Q1. pose proof (B0 aa) as Q2.
    transitivity (G i 0%nat * q + g2 / PI * q + (bb ^ 2 * basis Sphere i bb aa bb * D (S s) * (q * basis Sphere 0 bb aa bb) - aa ^ 2 * basis Sphere i aa aa bb * D s * (q * basis Sphere 0 aa aa bb))); [ring|].
    rewrite Q1, Q2. ring. }
  rewrite K2 in K3. rewrite EMs in *. rewrite EJs, ELs. rewrite EM3 in K3. rewrite K3. unfold offset.
  generalize (RInt (fun x => x * basis Sphere i x aa bb) aa bb) (RInt (fun x => x ^ 2 * basis Sphere i x aa bb) aa bb). intros I1 I2.
  field. lra.
Qed.
End U.
