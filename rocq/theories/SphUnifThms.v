(** C133: what the spherical update does to a uniform isotropic field. *)
From Coq Require Import ZArith QArith Qreals.
From Coquelicot Require Import Coquelicot.
From Verif Require Import Py PyLemmas Calc Legendre Cheb DGModel DGSpec DGProofs DGBalance MatModel RhsModel RhsProofs
  SpherePoly SphereProofs SphereBal SphereWeak SphereThms PosDef SphMass SphUnif.
Open Scope R_scope.

(** the hypotheses shared by the theorems below: at time t every cell and direction holds the constant c0 *)
Definition uniform_at (c : rhs_cfg) (t : R) (E : nat -> R -> R) (V : nat -> nat -> nat -> R) (c0 : R) : Prop :=
  forall l k x, (l < N_ang c)%nat -> (k < fN (rflux c))%nat -> E k t < x < E (S k) t ->
    field Sphere (fM (rflux c)) (V l k) (E k t) (E (S k) t) x = c0.

Lemma field_unique M u v a b : a < b -> (forall x, a < x < b -> field Sphere M u a b x = field Sphere M v a b x) -> forall j, (j <= M)%nat -> u j = v j.
Proof.
  intros H F j Hj. destruct (Req_dec (u j - v j) 0) as [|N]; [lra|]. exfalso.
  destruct (field_nonzero M (fun j => u j - v j) a b j H Hj N) as (r & Hr & Q). apply Q.
  transitivity (field Sphere M u a b r - field Sphere M v a b r); [|rewrite F by auto; ring].
  unfold field. rewrite <- sumn_minus. apply sumn_ext. intros; ring.
Qed.
Lemma uniform_ucoef c t E V c0 : increasing (fN (rflux c)) (fun k => E k t) -> uniform_at c t E V c0 ->
  forall l k j, (l < N_ang c)%nat -> (k < fN (rflux c))%nat -> (j < fM (rflux c) + 1)%nat -> V l k j = ucoef c0 (E (S k) t - E k t) j.
Proof.
  intros He HU l k j Hl Hk Hj. pose proof (He k Hk) as Hab. cbv beta in Hab.
  apply (field_unique (fM (rflux c)) _ _ (E k t) (E (S k) t)); [auto| |lia]. intros x Hx. rewrite ucoef_field by auto. now apply HU.
Qed.

(** [Rt j] is the rate at which coefficient j must change for the same constant to be held by the moving cell; [W] is what
    the code returns.  Their difference is the projection of the right-hand side below: twice the offset of the direction
    from the middle of its angular cell over r, and the collision balance. *)
Theorem C133_uniform_rate : forall c t (E : nat -> R -> R) V st c0,
  fgeom (rflux c) = Sphere -> (2 <= fN (rflux c))%nat -> (forall k, r_edges c t k = E k t) ->
  increasing (fN (rflux c)) (fun k => E k t) -> E 0%nat t = 0 ->
  (forall k, (k <= fN (rflux c))%nat -> is_derive (E k) t (r_Dedges c t k)) ->
  (2 <= N_ang c)%nat -> directions (N_ang c) (mus c) -> uniform_at c t E V c0 ->
  forall s W, (S s < fN (rflux c))%nat -> rhs_space c st t V s = Ok W ->
  let n := (fM (rflux c) + 1)%nat in let aa := E s t in let bb := E (S s) t in
  mass_exact (tabs c) n aa bb -> J_exact (tabs c) n aa bb -> L_exact (tabs c) n aa bb ->
  inverts n (make_mass_sphere (tabs c) aa bb) (inv c (make_mass_sphere (tabs c) aa bb)) ->
  forall Rt, (forall j, (j < n)%nat -> is_derive (fun w => if (j =? 0)%nat then c0 * sqrt (PI * (E (S s) w - E s w)) else 0) t (Rt j)) ->
  forall a i, (a < N_ang c)%nat -> (i < n)%nat ->
  is_RInt (fun r => basis Sphere i r aa bb *
      (r ^ 2 * field Sphere (fM (rflux c)) (fun j => W a j - Rt j) aa bb r
       - c0 * (2 * ((aedge (N_ang c) (mus c) a + aedge (N_ang c) (mus c) (S a)) / 2 - mus c a) * r
               + (sigma_s c * sumn (N_ang c) (wsa c) - 1) * r ^ 2))) aa bb
    (1 / 2 * sigma_s c * Src c t aa bb i).
Proof.
  intros c t E V st c0 Hg HN HE He H0 HD HA Hdir HU s W Hs HW n aa bb HM HJ HL Hinv Rt HR a i Ha Hi.
  pose proof (uniform_ucoef c t E V c0 He HU) as HU'.
  pose proof (u_update c t E V st c0 Hg HN HE He HA Hdir HU' H0 s W Hs HW HM HJ HL Hinv a Ha i Hi) as K.
  assert (Hab : aa < bb) by (apply He; lia).
  apply (int_ext (fun r => r ^ 2 * basis Sphere i r aa bb * field Sphere (fM (rflux c)) (fun j => W a j - Rt j) aa bb r
     - (c0 * (2 * offset (N_ang c) (mus c) a * (r * basis Sphere i r aa bb) + (sigma_s c * sumn (N_ang c) (wsa c) - 1) * (r ^ 2 * basis Sphere i r aa bb))))).
  { intros r. unfold offset. ring. }
  eapply int_eq.
  - apply int_minus.
    + apply (int_dot (fun r => r ^ 2 * basis Sphere i r aa bb)). intros j Hj. apply HM; auto.
    + apply int_scal, int_plus; apply int_scal, int_val; intros x; (apply cmult; [|now apply sph_basis_cont]); [apply cid|apply cpow, cid].
  - rewrite (dotv_ext _ _ (make_mass_sphere (tabs c) aa bb) _ (fun j => W a j - urate c t E c0 s j)).
    + fold aa bb in K. unfold n in K. rewrite K. ring.
    + auto.
    + intros j Hj. f_equal. rewrite <- (is_derive_unique _ _ _ (HR j Hj)). apply is_derive_unique.
      apply (ucoef_dt c t E c0 HN He HD HA s Hs a Ha j). lia.
Qed.
Print Assumptions C133_uniform_rate.

Lemma rB0_pos a b : 0 <= a < b -> 0 < RInt (fun x => x * basis Sphere 0 x a b) a b.
Proof.
  intros [Ha H]. assert (E : RInt (fun x => x * basis Sphere 0 x a b) a b = sqrt (1 / (PI * (b - a))) * ((b * b - a * a) / 2)).
  { apply int_uniq. apply (int_ext (fun x => sqrt (1 / (PI * (b - a))) * x)).
    { intros x. unfold basis. cbn [Nat.eqb]. rewrite cheb_0. ring. }
    apply int_scal. replace ((b * b - a * a) / 2) with (b * b / 2 - a * a / 2) by field.
    apply (int_ftc (fun x => x * x / 2)); [|intros; apply cid]. intros x. eapply dd_eq; [apply dd_divc, dd_mult; apply dd_id|]. cbv beta. field. }
  rewrite E. apply Rmult_lt_0_compat; [apply sqrt_lt_R0; apply Rdiv_lt_0_compat; [lra|now apply ph_pos]|nra].
Qed.
(** Without a source and with the collision balance, the constant is held (the code returns exactly the rate of the
    coefficients of the same constant) in the directions in the middle of their angular cells, and only there. *)
Theorem C133_preserved_iff : forall c t (E : nat -> R -> R) V st c0,
  fgeom (rflux c) = Sphere -> (2 <= fN (rflux c))%nat -> (forall k, r_edges c t k = E k t) ->
  increasing (fN (rflux c)) (fun k => E k t) -> E 0%nat t = 0 ->
  (forall k, (k <= fN (rflux c))%nat -> is_derive (E k) t (r_Dedges c t k)) ->
  (2 <= N_ang c)%nat -> directions (N_ang c) (mus c) -> uniform_at c t E V c0 -> c0 <> 0 ->
  sigma_s c * sumn (N_ang c) (wsa c) = 1 ->
  forall s W, (S s < fN (rflux c))%nat -> rhs_space c st t V s = Ok W ->
  let n := (fM (rflux c) + 1)%nat in let aa := E s t in let bb := E (S s) t in
  mass_exact (tabs c) n aa bb -> J_exact (tabs c) n aa bb -> L_exact (tabs c) n aa bb ->
  inverts n (make_mass_sphere (tabs c) aa bb) (inv c (make_mass_sphere (tabs c) aa bb)) ->
  (forall i, (i < n)%nat -> Src c t aa bb i = 0) ->
  forall a, (a < N_ang c)%nat ->
  ((forall j, (j < n)%nat -> is_derive (fun w => if (j =? 0)%nat then c0 * sqrt (PI * (E (S s) w - E s w)) else 0) t (W a j))
   <-> mus c a = (aedge (N_ang c) (mus c) a + aedge (N_ang c) (mus c) (S a)) / 2).
Proof.
  intros c t E V st c0 Hg HN HE He H0 HD HA Hdir HU Hc0 Hsc s W Hs HW n aa bb HM HJ HL Hinv HS a Ha.
  pose proof (uniform_ucoef c t E V c0 He HU) as HU'.
  pose proof (u_update c t E V st c0 Hg HN HE He HA Hdir HU' H0 s W Hs HW HM HJ HL Hinv a Ha) as K.
  assert (Hab : aa < bb) by (apply He; lia).
  assert (Haa : 0 <= aa). { unfold aa. clear - H0 He Hs. induction s as [|s IH]; [lra|]. specialize (IH ltac:(lia)). pose proof (He s ltac:(lia)). cbv beta in *. lra. }
  assert (UD : forall j, is_derive (fun w => if (j =? 0)%nat then c0 * sqrt (PI * (E (S s) w - E s w)) else 0) t (urate c t E c0 s j)).
  { intros j. apply (ucoef_dt c t E c0 HN He HD HA s Hs a Ha j). lia. }
  fold aa bb in K. fold n in K. split.
  - intros HR. assert (Hn : (0 < n)%nat) by (unfold n; lia). specialize (K 0%nat Hn). rewrite HS, Hsc in K by auto.
    rewrite (dotv_ext _ _ (make_mass_sphere (tabs c) aa bb) _ (fun _ => 0 * 0)) in K; auto.
    + rewrite dotv_scal in K. pose proof (rB0_pos aa bb (conj Haa Hab)) as P.
      assert (Z : offset (N_ang c) (mus c) a = 0); [|unfold offset in Z; lra].
      assert (Q : (2 * c0 * RInt (fun x => x * basis Sphere 0 x aa bb) aa bb) * offset (N_ang c) (mus c) a = 0) by lra.
      apply Rmult_integral in Q. destruct Q as [Q|Q]; auto. exfalso. apply Rmult_integral in Q. destruct Q; lra.
    + intros j Hj. rewrite <- (is_derive_unique _ _ _ (HR j Hj)), <- (is_derive_unique _ _ _ (UD j)). ring.
  - intros Hm j Hj. assert (Z : offset (N_ang c) (mus c) a = 0) by (unfold offset; lra).
    assert (P : pdef n (make_mass_sphere (tabs c) aa bb)) by (apply mass_pdef; auto).
    assert (Q : W a j - urate c t E c0 s j = 0).
    { apply (pdef_inj n _ (fun j => W a j - urate c t E c0 s j) P); auto. intros i Hi. rewrite K by auto. rewrite Z, HS, Hsc by auto. ring. }
    eapply dd_eq; [apply UD|]. lra.
Qed.
Print Assumptions C133_preserved_iff.
(** held in every direction: exactly for equally wide angular cells with the directions in their middles *)
Theorem C133_all_directions : forall N x, (2 <= N)%nat -> directions N x ->
  ((forall a, (a < N)%nat -> x a = (aedge N x a + aedge N x (S a)) / 2) <-> (forall a, (a < N)%nat -> x a = -1 + (2 * INR a + 1) / INR N)).
Proof. exact midpoints_only. Qed.
Print Assumptions C133_all_directions.

(** the two-point Gauss set: a constant isotropic field in balance with its collisions does not stay constant *)
Definition g2 (a : nat) : R := if (a =? 0)%nat then - (1 / sqrt 3) else 1 / sqrt 3.
Lemma g2_dir : directions 2 g2 /\ 1 / 2 < 1 / sqrt 3 < 1.
Proof.
  pose proof (sqrt_sqrt 3 ltac:(lra)) as S3. pose proof (sqrt_pos 3).
  assert (A : 1 < sqrt 3 < 2) by nra.
  assert (B : 1 / 2 < 1 / sqrt 3 < 1).
  { split; [apply Rmult_lt_reg_r with (sqrt 3); [lra|]; field_simplify; lra|apply Rmult_lt_reg_r with (sqrt 3); [lra|]; field_simplify; lra]. }
  split; auto. unfold directions, g2. repeat split; cbn [Nat.eqb Nat.sub]; try lra. intros a Ha. assert (a = 0)%nat as -> by lia. cbn [Nat.eqb]. lra.
Qed.
Definition ucfg (m : nat -> R) : rhs_cfg := {|
  rflux := rflux scfg; N_ang := 2; mus := m; wsa := fun _ => 1 / 2; sigma_s := 1; sigma_t := 1;
  r_edges := r_edges scfg; r_Dedges := r_Dedges scfg; tabs := ideal; inv := inv scfg; Src := fun _ _ _ _ => 0 |}.
Definition uV (k : nat) : nat -> R := ucoef 1 (sE (S k) 0 - sE k 0).
Lemma ucfg_ok m st : m 1%nat = - m 0%nat -> m 0%nat < m 1%nat -> exists W, rhs_space (ucfg m) st 0 (fun _ => uV) 0 = Ok W.
Proof.
  intros H1 H2. apply C25_update_defined_iff; [reflexivity| |cbn; lia].
  apply (refl_all_ok (ucfg m)); cbn [N_ang mus ucfg].
  - intros a Ha. assert (a = 0)%nat as -> by lia. auto.
  - intros a Ha. assert (a = 0 \/ a = 1)%nat as [-> | ->] by lia; cbn [Nat.sub]; lra.
Qed.
Lemma ucfg_uniform m : uniform_at (ucfg m) 0 sE (fun _ => uV) 1.
Proof.
  intros l k x _ _ Hx. unfold uV. apply ucoef_field. lra.
Qed.
Definition held (W : nat -> nat -> R) (a : nat) : Prop :=
  forall j, (j < 1)%nat -> is_derive (fun w => if (j =? 0)%nat then 1 * sqrt (PI * (sE 1 w - sE 0 w)) else 0) 0 (W a j).
Lemma ucfg_iff m st W a : directions 2 m -> rhs_space (ucfg m) st 0 (fun _ => uV) 0 = Ok W -> (a < 2)%nat ->
  (held W a <-> m a = (aedge 2 m a + aedge 2 m (S a)) / 2).
Proof.
  intros Hd HW Ha. destruct C25_example as (E1 & E2 & E3 & E4 & E5 & _ & E7). destruct (E7 0%nat) as (X1 & X2 & X3 & X4).
  assert (Z0 : sE 0 0 = 0) by (unfold sE; simpl; ring).
  assert (SC : sigma_s (ucfg m) * sumn (N_ang (ucfg m)) (wsa (ucfg m)) = 1) by (cbn [ucfg sigma_s N_ang wsa sumn]; lra).
  exact (C133_preserved_iff (ucfg m) 0 sE (fun _ => uV) st 1 E1 E2 E3 E4 Z0 (fun k _ => E5 k) (le_n 2) Hd (ucfg_uniform m) R1_neq_R0 SC
    0 W (le_n 2) HW X1 X2 X3 X4 (fun _ _ => eq_refl) a Ha).
Qed.
Theorem C133_gauss_directions_refuted : exists c t E V st W a,
  fgeom (rflux c) = Sphere /\ (2 <= fN (rflux c))%nat /\ (forall k, r_edges c t k = E k t) /\
  increasing (fN (rflux c)) (fun k => E k t) /\ E 0%nat t = 0 /\
  (forall k, (k <= fN (rflux c))%nat -> is_derive (E k) t (r_Dedges c t k)) /\
  N_ang c = 2%nat /\ (forall l, (l < 2)%nat -> mus c l ^ 2 = 1 / 3 /\ wsa c l = 1 / 2) /\ uniform_at c t E V 1 /\ sigma_s c = 1 /\
  rhs_space c st t V 0 = Ok W /\ (forall i, Src c t (E 0%nat t) (E 1%nat t) i = 0) /\ (a < 2)%nat /\
  ~ is_derive (fun w => 1 * sqrt (PI * (E 1%nat w - E 0%nat w))) t (W a 0%nat).
Proof.
  destruct C25_example as (E1 & E2 & E3 & E4 & E5 & _ & E7). destruct g2_dir as [Hd B].
  destruct (ucfg_ok g2 (fun _ => st0)) as (W & HW); [unfold g2; cbn [Nat.eqb]; lra|unfold g2; cbn [Nat.eqb]; lra|].
  exists (ucfg g2), 0, sE, (fun _ => uV), (fun _ => st0), W, 0%nat.
  refine (conj E1 (conj E2 (conj E3 (conj E4 (conj _ (conj (fun k _ => E5 k) (conj eq_refl (conj _ (conj _ (conj eq_refl (conj HW (conj _ (conj _ _))))))))))))); auto.
  - unfold sE. simpl. ring.
  - intros l _. split; [|reflexivity]. cbn [ucfg mus]. unfold g2. pose proof (sqrt_sqrt 3 ltac:(lra)) as S3.
    assert (0 < sqrt 3) by (apply sqrt_lt_R0; lra).
    destruct (l =? 0)%nat; [transitivity (1 / (sqrt 3 * sqrt 3)); [field; lra|rewrite S3; reflexivity]|transitivity (1 / (sqrt 3 * sqrt 3)); [field; lra|rewrite S3; reflexivity]].
  - apply ucfg_uniform.
  - intro K. assert (HH : held W 0). { intros j Hj. assert (j = 0)%nat as -> by lia. exact K. }
    apply (ucfg_iff g2 _ W 0 Hd HW) in HH; [|lia]. unfold aedge, g2 in HH. cbn [Nat.eqb Nat.sub] in HH. lra.
Qed.
Print Assumptions C133_gauss_directions_refuted.
(** with directions -1/2 and 1/2, in the middles of [-1,0] and [0,1], it does *)
Example C133_example : exists W, rhs_space (ucfg (mus scfg)) (fun _ => st0) 0 (fun _ => uV) 0 = Ok W /\ held W 0 /\ held W 1.
Proof.
  destruct (ucfg_ok (mus scfg) (fun _ => st0)) as (W & HW); [cbn [mus scfg Nat.eqb]; lra|cbn [mus scfg Nat.eqb]; lra|].
  assert (Hd : directions 2 (mus scfg)).
  { unfold directions. cbn [mus scfg]. repeat split; cbn [Nat.eqb Nat.sub]; try lra. intros a Ha. assert (a = 0)%nat as -> by lia. cbn [Nat.eqb]. lra. }
  exists W. split; [auto|]. split; apply (ucfg_iff _ _ W _ Hd HW); try lia; unfold aedge; cbn [mus scfg Nat.eqb Nat.sub]; lra.
Qed.
