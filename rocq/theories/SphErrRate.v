(** Rate of the weighted square distance between the computed and the projected exact solution. *)
From Coq Require Import ZArith QArith Qreals FunctionalExtensionality.
From Coquelicot Require Import Coquelicot.
From Verif Require Import Py PyLemmas Calc Legendre Cheb DGModel DGSpec DGProofs DGInt DGBalance DGFinal GmatModel FuncLobatto MatModel RhsModel RhsProofs
  SpherePoly SphereProofs SphereBal SphereWeak SphereThms PosDef SphMass SphUnif SphEnergy SphSpec SphStab SphStabThms StabSpec StabProofs ErrSpec ErrLeib ErrProofs ErrEnergy
  SphErrSpec SphErrProj SphErrEn SphErrCons SphErrInv.
Open Scope R_scope.

Definition serr (c : rhs_cfg) (E : nat -> R -> R) (psi : nat -> nat -> R -> R -> R) (V : nat -> nat -> nat -> R -> R) (a s j : nat) (w : R) : R :=
  V a s j w - ucoef c E psi a s j w.

Lemma sphere_field_deg M u a b : a < b -> deg_le M (field Sphere M u a b).
Proof.
  intros H. unfold field. apply (deg_sumn M (M + 1) (fun j x => u j * basis Sphere j x a b)). intros j Hj.
  apply (deg_ext _ (fun x => u j * sqrt (cn j / (PI * (b - a))) * cheb j (2 / (b - a) * x + (- (a + b) / (b - a))) + 0 * cheb j (2 / (b - a) * x + (- (a + b) / (b - a))))).
  - intros x. rewrite basis_sph. unfold refz. replace (2 / (b - a) * x + - (a + b) / (b - a)) with ((2 * x - a - b) / (b - a)) by (field; lra). ring.
  - apply deg_lin; apply (deg_affine M (cheb j)), (deg_mono j); try lia; apply deg_cheb.
Qed.

Section Rate.
Variables (c : rhs_cfg) (E : nat -> R -> R) (Q : nat -> R -> R -> R) (psi ang : nat -> nat -> R -> R -> R) (em : nat -> R -> R -> R) (t0 t1 : R).
Variables (V : nat -> nat -> nat -> R -> R) (st : nat -> nat -> flux_state) (t : R).
Let fc := rflux c.
Let M := fM fc.
Let n := (M + 1)%nat.
Let N := fN fc.
Let K := N_ang c.
Let D := fun k t => r_Dedges c t k.
Hypothesis HM : mesh_c1 fc E D.
Hypothesis HX : sph_exact c E Q psi ang em t0 t1.
Hypothesis Ht : t0 <= t <= t1.
Hypothesis Hg : fgeom fc = Sphere.
Hypothesis HN : (2 <= N)%nat.
Hypothesis HK : (2 <= K)%nat.
Hypothesis Hdir : directions K (mus c).
Hypothesis HMesh : sph_mesh_at c E t.
Hypothesis HTab : sph_tables_at c E t.
Hypothesis HSol : sph_solves_at c st V t.
Let Vt := fun l k j => V l k j t.
Let Ut := fun l k j => ucoef c E psi l k j t.
Let W := serr c E psi V.
Let Wt := fun l k j => W l k j t.
Let P := psi_at c E W.

Lemma He0 : increasing N (fun k => E k t). Proof. exact (proj1 (proj2 HMesh)). Qed.
Lemma e_nonneg k : (k <= N)%nat -> 0 <= E k t.
Proof.
  induction k as [|k IH]; intros Hk; [destruct HMesh as (_ & _ & -> & _); lra|].
  pose proof (He0 k ltac:(lia)). cbv beta in *. specialize (IH ltac:(lia)). lra.
Qed.
Lemma dterm_minus s a j : dterm c Wt s a j = dterm c Vt s a j - dterm c Ut s a j.
Proof.
  unfold dterm, Wt, W, serr, Vt, Ut, finite_diff_uneven. cbv zeta. destruct (negb _ && negb _); [|destruct (a =? 0)%nat]; unfold Rdiv; ring.
Qed.
Lemma make_P_minus s j : make_P K (wsa c) (fun l j => Wt l s j) j = make_P K (wsa c) (fun l j => Vt l s j) j - make_P K (wsa c) (fun l j => Ut l s j) j.
Proof. unfold make_P. rewrite <- sumn_minus. apply sumn_ext. intros. unfold Wt, W, serr, Vt, Ut. ring. Qed.

Lemma err_cell a s vl vr : (a < K)%nat -> (s < N)%nat ->
  face fc t (fun k => E k t) (r_Dedges c t) (Vt a) (mus c a) (Vt (refl_index c s a) 0%nat) s vl ->
  face fc t (fun k => E k t) (r_Dedges c t) (Vt a) (mus c a) (Vt (refl_index c s a) 0%nat) (S s) vr ->
  is_derive (sq_content M E (W a s) s) t
   (E s t ^ 2 * (mus c a - D s t) * (2 * (vl - psi a s (E s t) t) * P a s t (E s t) - P a s t (E s t) ^ 2)
    - E (S s) t ^ 2 * (mus c a - D (S s) t) * (2 * (vr - psi a s (E (S s) t) t) * P a s t (E (S s) t) - P a s t (E (S s) t) ^ 2)
    - 2 * mus c a * RInt (fun x => x * P a s t x ^ 2) (E s t) (E (S s) t)
    - 2 * RInt (fun x => x * (P a s t x * aterm K (mus c) (fun l => P l s t x) a)) (E s t) (E (S s) t)
    + 2 * sigma_s c * RInt (fun x => x ^ 2 * P a s t x * sumn K (fun l => wsa c l * P l s t x)) (E s t) (E (S s) t)
    - 2 * RInt (fun x => x ^ 2 * P a s t x ^ 2) (E s t) (E (S s) t)
    + 2 * RInt (fun x => x * P a s t x * adefect c E psi ang a s t x) (E s t) (E (S s) t)
    - 2 * sigma_s c * RInt (fun x => x ^ 2 * P a s t x * sdefect c psi em s t x) (E s t) (E (S s) t)).
Proof.
  intros Ha Hs F1 F2. set (aa := E s t). set (bb := E (S s) t).
  destruct HMesh as (HE & He & H0 & HD). assert (Hab : aa < bb) by exact (He s Hs).
  destruct (HSol s Hs) as (W0 & HW & HV0). destruct (HTab s Hs) as (T1 & T2 & T3 & T4). fold fc M in HV0.
  assert (HV : forall j, (j < n)%nat -> is_derive (V a s j) t (W0 a j)) by (intros j Hj; apply HV0; [exact Ha|unfold n in Hj; lia]).
  destruct (sx_eq _ _ _ _ _ _ _ _ HX a s Ha Hs) as (fx & ft & C & _).
  assert (DU : forall j, is_derive (ucoef c E psi a s j) t (Derive (ucoef c E psi a s j) t)).
  { intros j. apply Derive_correct. apply (pc_ex (E s) (E (S s)) (D s) (D (S s)) (psi a s) fx ft); [intros; apply HM; unfold N in *; lia|intros; apply HM; unfold N in *; lia|exact C|exact Hab]. }
  assert (EX : exists G MPR, make_G_sphere n aa bb (r_Dedges c t s) (r_Dedges c t (S s)) = Ok G /\ make_MPRIME n aa bb (r_Dedges c t s) (r_Dedges c t (S s)) = Ok MPR /\
    forall i, (i < n)%nat -> dotv n (make_mass_sphere (tabs c) aa bb) (W0 a) i =
     - (basis Sphere i bb aa bb * (bb ^ 2 * (mus c a - r_Dedges c t (S s)) * vr) - basis Sphere i aa aa bb * (aa ^ 2 * (mus c a - r_Dedges c t s) * vl))
     + mus c a * dotv n (make_L_sphere (tabs c) aa bb) (Vt a s) i - dotv n (make_J_sphere (tabs c) aa bb) (dterm c Vt s a) i
     + dotv n G (Vt a s) i + 1 / 2 * sigma_s c * Src c t aa bb i - dotv n MPR (Vt a s) i
     + sigma_s c * dotv n (make_mass_sphere (tabs c) aa bb) (make_P (N_ang c) (wsa c) (fun l j => Vt l s j)) i - dotv n (make_mass_sphere (tabs c) aa bb) (Vt a s) i).
  { assert (H00 : (0 < n)%nat) by (unfold n; lia).
    destruct (mass_update c t E V (st s) Hg HN HE He s W0 Hs HW T4 a 0 H00) as (vl0 & vr0 & G & MPR & _ & _ & EG & EM & _).
    exists G, MPR. split; [exact EG|split; [exact EM|]]. intros i Hi.
    destruct (mass_update c t E V (st s) Hg HN HE He s W0 Hs HW T4 a i Hi) as (vl' & vr' & G' & MPR' & F1' & F2' & EG' & EM' & EU).
    fold fc M n aa bb in EG', EM', EG, EM.
    assert (X1 : Ok G' = Ok G) by (transitivity (make_G_sphere n aa bb (r_Dedges c t s) (r_Dedges c t (S s))); [symmetry; exact EG'|exact EG]). injection X1 as X1.
    assert (X2 : Ok MPR' = Ok MPR) by (transitivity (make_MPRIME n aa bb (r_Dedges c t s) (r_Dedges c t (S s))); [symmetry; exact EM'|exact EM]). injection X2 as X2. subst G' MPR'.
    rewrite (face_fun fc t _ (r_Dedges c t) (Vt a) (mus c a) _ HN He s vl vl' F1 F1'), (face_fun fc t _ (r_Dedges c t) (Vt a) (mus c a) _ HN He (S s) vr vr' F2 F2').
    exact EU. }
  destruct EX as (G & MPR & EG & EM & EU).
  assert (HM10 : (M <= 10)%nat).
  { destruct (le_lt_dec M 10) as [L|L]; [auto|]. exfalso. destruct (over_pi_inv n _ G EG M M) as (g & Eg & _); [unfold n; lia|unfold n; lia|].
    rewrite G_out in Eg by auto. discriminate. }
  assert (EA : forall y i, (i < n)%nat -> dotv n (make_mass_sphere (tabs c) aa bb) y i = dotv n (rgram aa bb) y i).
  { intros y i Hi. apply dotv_ext; auto. intros j Hj. eapply int_uniq2; [apply T1; auto|now apply gram_is]. }
  assert (EL : forall y i, (i < n)%nat -> dotv n (make_L_sphere (tabs c) aa bb) y i = dotv n (Lx aa bb) y i).
  { intros y i Hi. apply dotv_ext; auto. intros j Hj. eapply int_uniq2; [apply T3; auto|now apply Lx_is]. }
  assert (EJ : forall y i, (i < n)%nat -> dotv n (make_J_sphere (tabs c) aa bb) y i = dotv n (Jx aa bb) y i).
  { intros y i Hi. apply dotv_ext; auto. intros j Hj. eapply int_uniq2; [apply T2; auto|now apply Jx_is]. }
  assert (EGx : forall y i, (i < n)%nat -> dotv n G y i = dotv n (Gx aa bb (D s t) (D (S s) t)) y i).
  { intros y i Hi. apply dotv_ext; auto. intros j Hj. destruct (over_pi_inv n _ G EG i j Hi Hj) as (g & Eg & ->). apply G_entry in Eg; [now rewrite Eg|lra]. }
  assert (EMx : forall y i, (i < n)%nat -> dotv n MPR y i = dotv n (M'x aa bb (D s t) (D (S s) t)) y i).
  { intros y i Hi. apply dotv_ext; auto. intros j Hj. destruct (over_pi_inv n _ MPR EM i j Hi Hj) as (g & Eg & ->). apply M_entry in Eg. now rewrite Eg. }
  pose proof (exact_update c E Q psi ang em t0 t1 HM HX t Ht He a s Ha Hs) as XU.
  assert (CE := cell_energy_gen M E t s (D s t) (D (S s) t) HM10 Hab (proj1 (HM s ltac:(unfold N in *; lia) t)) (proj1 (HM (S s) ltac:(unfold N in *; lia) t))
    (W a s) (fun j => W0 a j - Derive (ucoef c E psi a s j) t) (dterm c Wt s a) (make_P K (wsa c) (fun l j => Wt l s j))
    (fun i => ares c E psi ang t a s i - sigma_s c * sres c E psi em t s i) (mus c a) (sigma_s c) (vl - psi a s aa t) (vr - psi a s bb t)).
  cbv zeta in CE.
  eapply dd_eq; [apply CE|].
  - intros j Hj. unfold W, serr. apply dd_minus; [apply HV; auto|apply DU].
  - intros i Hi. fold n. fold aa bb. rewrite dotv_minus. rewrite <- (EA (W0 a) i Hi), EU by auto.
    specialize (XU i Hi). fold fc M n aa bb in XU.
    rewrite XU. clear XU.
    rewrite EL, EJ, EGx, EMx, !EA by auto.
    change (fun j => W a s j t) with (fun j => Vt a s j - Ut a s j). rewrite !dotv_minus.
    replace (dotv n (Jx aa bb) (dterm c Wt s a) i) with (dotv n (Jx aa bb) (dterm c Vt s a) i - dotv n (Jx aa bb) (dterm c Ut s a) i).
    2: { rewrite <- dotv_minus. apply dotv_ext; auto. intros. now rewrite dterm_minus. }
    replace (dotv n (rgram aa bb) (make_P K (wsa c) (fun l j => Wt l s j)) i)
      with (dotv n (rgram aa bb) (make_P K (wsa c) (fun l j => Vt l s j)) i - dotv n (rgram aa bb) (make_P K (wsa c) (fun l j => Ut l s j)) i).
    2: { rewrite <- dotv_minus. apply dotv_ext; auto. intros. now rewrite make_P_minus. }
    unfold Ut, Vt, K, D. cbv beta.
    ring.
  - cbv beta. fold aa bb n. change (fun j => W a s j t) with (Wt a s).
    assert (EP : forall l x, field Sphere M (Wt l s) aa bb x = P l s t x) by reflexivity.
    assert (CP : forall l x, continuous (P l s t) x) by (intros; unfold P, psi_at; apply sph_field_cont; exact Hab).
    assert (R2 : sumn n (fun i => Wt a s i * (ares c E psi ang t a s i - sigma_s c * sres c E psi em t s i)) =
      RInt (fun x => x * P a s t x * adefect c E psi ang a s t x) aa bb - sigma_s c * RInt (fun x => x ^ 2 * P a s t x * sdefect c psi em s t x) aa bb).
    { assert (CA := adef_c c E Q psi ang em t0 t1 HX t Ht He a s Ha Hs). assert (CS := sdef_c c E Q psi ang em t0 t1 HX t Ht a s Ha Hs).
      assert (CB : forall i x, continuous (fun x => basis Sphere i x aa bb) x) by (intros; now apply sph_basis_cont).
      rewrite (sumn_ext n _ (fun i => Wt a s i * ares c E psi ang t a s i - sigma_s c * (Wt a s i * sres c E psi em t s i))) by (intros; ring).
      rewrite sumn_minus, sumn_scal. f_equal; [|f_equal]; symmetry; apply int_uniq.
      - apply (int_ext (fun x => sumn n (fun i => Wt a s i * (x * adefect c E psi ang a s t x * basis Sphere i x aa bb)))).
        { intros x. rewrite <- EP. unfold field. transitivity (x * adefect c E psi ang a s t x * sumn n (fun j => Wt a s j * basis Sphere j x aa bb)); [|unfold n; ring]. rewrite <- sumn_scal. apply sumn_ext; intros; ring. }
        apply int_sumn. intros i Hi. apply int_scal. unfold ares. fold aa bb. apply int_val. intros x. apply cmult; [apply cmult; [apply cid|apply CA]|apply CB].
      - apply (int_ext (fun x => sumn n (fun i => Wt a s i * (x ^ 2 * sdefect c psi em s t x * basis Sphere i x aa bb)))).
        { intros x. rewrite <- EP. unfold field. transitivity (x ^ 2 * sdefect c psi em s t x * sumn n (fun j => Wt a s j * basis Sphere j x aa bb)); [|unfold n; ring]. rewrite <- sumn_scal. apply sumn_ext; intros; ring. }
        apply int_sumn. intros i Hi. apply int_scal. unfold sres. fold aa bb. apply int_val. intros x. apply cmult; [apply cmult; [apply cpow, cid|apply CS]|apply CB]. }
    match goal with |- context [2 * sumn n ?f] => replace (sumn n f) with (RInt (fun x => x * P a s t x * adefect c E psi ang a s t x) aa bb - sigma_s c * RInt (fun x => x ^ 2 * P a s t x * sdefect c psi em s t x) aa bb) by (symmetry; exact R2) end.
    replace (RInt (fun x => x * (P a s t x * aterm K (mus c) (fun l => P l s t x) a)) aa bb)
      with (RInt (fun x => x * field Sphere M (Wt a s) aa bb x * field Sphere M (dterm c Wt s a) aa bb x) aa bb).
    2: { apply RInt_ext. intros x _. rewrite Rmult_assoc. f_equal. f_equal. unfold P, psi_at, field. rewrite <- aterm_field. reflexivity. }
    replace (RInt (fun x => x ^ 2 * P a s t x * sumn K (fun l => wsa c l * P l s t x)) aa bb)
      with (RInt (fun x => x ^ 2 * field Sphere M (Wt a s) aa bb x * field Sphere M (make_P K (wsa c) (fun l j => Wt l s j)) aa bb x) aa bb).
    2: { apply RInt_ext. intros x _. f_equal. unfold P, psi_at, field, make_P. symmetry. erewrite sumn_ext by (intros l _; rewrite <- sumn_scal; reflexivity). rewrite sumn_swap.
         apply sumn_ext. intros j _. rewrite <- sumn_scal_r. apply sumn_ext. intros; unfold Wt, aa, bb; ring. }
    change (field Sphere M (Wt a s) aa bb) with (P a s t). ring.
Qed.

(** the computed expansion is the error plus the projection *)
Lemma V_split a s x : psi_at c E V a s t x = P a s t x + rproj_at M E (psi a s) s t x.
Proof.
  unfold P, psi_at, rproj_at, field, W, serr. fold fc M. rewrite <- sumn_plus. apply sumn_ext. intros j _. unfold ucoef, pc. fold fc M. ring.
Qed.

Lemma err_faces a : (a < K)%nat -> exists v, (forall f, (f <= N)%nat -> face fc t (fun k => E k t) (r_Dedges c t) (Vt a) (mus c a) (Vt (refl_index c 0 a) 0%nat) f (v f)) /\
  sumn N (fun s => E s t ^ 2 * (mus c a - D s t) * (2 * (v s - psi a s (E s t) t) * P a s t (E s t) - P a s t (E s t) ^ 2)
    - E (S s) t ^ 2 * (mus c a - D (S s) t) * (2 * (v (S s) - psi a s (E (S s) t) t) * P a s t (E (S s) t) - P a s t (E (S s) t) ^ 2))
  <= sumn N (fun s => E (S s) t ^ 2 * Rabs (mus c a - D (S s) t) * fdefect c E psi a s t ^ 2).
Proof.
  intros Ha. destruct HMesh as (HE & He & H0 & HD).
  destruct (face_exists fc t (fun k => E k t) (r_Dedges c t) (Vt a) (mus c a) (Vt (refl_index c 0 a) 0%nat) HN He 0 (Nat.le_0_l _)) as (v0 & F0).
  destruct (face_exists fc t (fun k => E k t) (r_Dedges c t) (Vt a) (mus c a) (Vt (refl_index c 0 a) 0%nat) HN He N (Nat.le_refl _)) as (vN & FN).
  pose (v := fun f => match f with O => v0 | S s => if Rle_lt_dec 0 (mus c a - D (S s) t) then psi_at c E V a s t (E (S s) t)
                       else if (S s =? N)%nat then psi a (N - 1)%nat (E N t) t else psi_at c E V a (S s) t (E (S s) t) end).
  assert (Fv : forall f, (f <= N)%nat -> face fc t (fun k => E k t) (r_Dedges c t) (Vt a) (mus c a) (Vt (refl_index c 0 a) 0%nat) f (v f)).
  { intros [|s] Hs; [exact F0|]. cbn [v]. destruct (Rle_lt_dec 0 (mus c a - D (S s) t)) as [Hp|Hp].
    - unfold psi_at. fold fc. rewrite <- Hg. now apply (face_from_left fc t (fun k => E k t) (r_Dedges c t) (Vt a) (mus c a) (Vt (refl_index c 0 a) 0%nat) s).
    - destruct (Nat.eqb_spec (S s) N) as [EN|NN].
      + rewrite EN in *. assert (I : inflow_r fc t (fun k => E k t) vN).
        { inversion FN as [v1 A1 B1 E1|f1 A1 B1 E1|f1 A1 B1 E1|v1 A1 B1 E1]; [unfold N in *; lia| |unfold N in *; lia|assumption].
          exfalso. unfold D in Hp. replace (S f1) with N in A1 by (unfold N; congruence). cbv beta in Hp. lra. }
        replace (psi a (N - 1)%nat (E N t) t) with vN by exact (sx_inflow _ _ _ _ _ _ _ _ HX a t vN Ha Ht Hp I). now apply face_in_r.
      + unfold psi_at. fold fc. rewrite <- Hg. apply (face_from_right fc t (fun k => E k t) (r_Dedges c t) (Vt a) (mus c a) (Vt (refl_index c 0 a) 0%nat) (S s)); [auto|]. fold N. lia. }
  exists v. split; [exact Fv|].
  pose (up := fun s => if Rle_lt_dec 0 (mus c a - D (S s) t) then P a s t (E (S s) t) else if (S s =? N)%nat then 0 else P a (S s) t (E (S s) t)).
  assert (VL : forall s, (s < N)%nat -> (mus c a - D (S s) t) * (v (S s) - psi a s (E (S s) t) t) = (mus c a - D (S s) t) * (up s + fdefect c E psi a s t)).
  { intros s Hs. cbn [v]. unfold up, fdefect. fold fc M N. change (r_Dedges c t (S s)) with (D (S s) t). destruct (Rle_lt_dec 0 (mus c a - D (S s) t)) as [L|L].
    - rewrite V_split. ring.
    - destruct (Nat.eqb_spec (S s) N) as [EN|NN].
      + rewrite EN. replace s with (N - 1)%nat by lia. ring.
      + rewrite V_split. pose proof (sx_match _ _ _ _ _ _ _ _ HX a s t Ha ltac:(unfold N, fc in *; lia) Ht) as X. change (r_Dedges c t (S s)) with (D (S s) t) in X.
        replace ((mus c a - D (S s) t) * (P a (S s) t (E (S s) t) + rproj_at M E (psi a (S s)) (S s) t (E (S s) t) - psi a s (E (S s) t) t))
          with ((mus c a - D (S s) t) * (P a (S s) t (E (S s) t) + (rproj_at M E (psi a (S s)) (S s) t (E (S s) t) - psi a (S s) (E (S s) t) t)) - (mus c a - D (S s) t) * (psi a s (E (S s) t) t - psi a (S s) (E (S s) t) t)) by ring.
        rewrite X. ring. }
  assert (VR : forall s, (S s < N)%nat -> (mus c a - D (S s) t) * (v (S s) - psi a (S s) (E (S s) t) t) = (mus c a - D (S s) t) * (up s + fdefect c E psi a s t)).
  { intros s Hs. rewrite <- (VL s) by lia. pose proof (sx_match _ _ _ _ _ _ _ _ HX a s t Ha Hs Ht) as X. change (r_Dedges c t (S s)) with (D (S s) t) in X. lra. }
  assert (Ey : forall s L R, up s = (if Rle_lt_dec 0 (mus c a - D (S s) t) then L else R) ->
     (mus c a - D (S s) t) * (2 * (up s + fdefect c E psi a s t) * R - R ^ 2) - (mus c a - D (S s) t) * (2 * (up s + fdefect c E psi a s t) * L - L ^ 2)
     <= Rabs (mus c a - D (S s) t) * fdefect c E psi a s t ^ 2).
  { intros s L R EU. eapply Rle_trans; [|apply (young (mus c a - D (S s) t) (fdefect c E psi a s t) (R - L))]. apply Req_le. rewrite EU.
    destruct (Rle_lt_dec 0 (mus c a - D (S s) t)); [rewrite Rabs_pos_eq by auto|rewrite Rabs_left by auto]; ring. }
  clearbody v.
  assert (EN : exists m, N = S m) by (exists (N - 1)%nat; lia). destruct EN as (m & EN).
  rewrite EN at 1. rewrite (sumn_faces m (fun s => E s t ^ 2 * (mus c a - D s t) * (2 * (v s - psi a s (E s t) t) * P a s t (E s t) - P a s t (E s t) ^ 2))
     (fun s => E (S s) t ^ 2 * (mus c a - D (S s) t) * (2 * (v (S s) - psi a s (E (S s) t) t) * P a s t (E (S s) t) - P a s t (E (S s) t) ^ 2))).
  rewrite H0, EN. cbn [sumn].
  assert (B1 : forall s, (s < m)%nat -> E (S s) t ^ 2 * (mus c a - D (S s) t) * (2 * (v (S s) - psi a (S s) (E (S s) t) t) * P a (S s) t (E (S s) t) - P a (S s) t (E (S s) t) ^ 2)
      - E (S s) t ^ 2 * (mus c a - D (S s) t) * (2 * (v (S s) - psi a s (E (S s) t) t) * P a s t (E (S s) t) - P a s t (E (S s) t) ^ 2)
      <= E (S s) t ^ 2 * Rabs (mus c a - D (S s) t) * fdefect c E psi a s t ^ 2).
  { intros s Hs. pose proof (VL s ltac:(lia)) as X1. pose proof (VR s ltac:(lia)) as X2.
    set (A := v (S s) - psi a s (E (S s) t) t) in *. set (B := v (S s) - psi a (S s) (E (S s) t) t) in *. set (sg := mus c a - D (S s) t) in *.
    assert (Y := Ey s (P a s t (E (S s) t)) (P a (S s) t (E (S s) t))). fold sg in Y.
    replace (E (S s) t ^ 2 * sg * (2 * B * P a (S s) t (E (S s) t) - P a (S s) t (E (S s) t) ^ 2) - E (S s) t ^ 2 * sg * (2 * A * P a s t (E (S s) t) - P a s t (E (S s) t) ^ 2))
      with (E (S s) t ^ 2 * ((2 * (sg * B) * P a (S s) t (E (S s) t) - sg * P a (S s) t (E (S s) t) ^ 2) - (2 * (sg * A) * P a s t (E (S s) t) - sg * P a s t (E (S s) t) ^ 2))) by ring.
    rewrite X1, X2, (Rmult_assoc (E (S s) t ^ 2) (Rabs sg)). apply Rmult_le_compat_l; [apply pow2_ge_0|]. eapply Rle_trans; [|apply Y].
    - apply Req_le. ring.
    - unfold up. fold sg. destruct (Rle_lt_dec 0 sg); auto. destruct (Nat.eqb_spec (S s) N); [lia|auto]. }
  assert (B2 : - (E (S m) t ^ 2 * (mus c a - D (S m) t) * (2 * (v (S m) - psi a m (E (S m) t) t) * P a m t (E (S m) t) - P a m t (E (S m) t) ^ 2))
      <= E (S m) t ^ 2 * Rabs (mus c a - D (S m) t) * fdefect c E psi a m t ^ 2).
  { pose proof (VL m ltac:(lia)) as X1.
    set (A := v (S m) - psi a m (E (S m) t) t) in *. set (sg := mus c a - D (S m) t) in *.
    assert (Y := Ey m (P a m t (E (S m) t)) 0). fold sg in Y.
    replace (- (E (S m) t ^ 2 * sg * (2 * A * P a m t (E (S m) t) - P a m t (E (S m) t) ^ 2)))
      with (E (S m) t ^ 2 * (- (2 * (sg * A) * P a m t (E (S m) t) - sg * P a m t (E (S m) t) ^ 2))) by ring.
    rewrite X1, (Rmult_assoc (E (S m) t ^ 2) (Rabs sg)). apply Rmult_le_compat_l; [apply pow2_ge_0|]. eapply Rle_trans; [|apply Y].
    - apply Req_le. ring.
    - unfold up. fold sg. destruct (Rle_lt_dec 0 sg); auto. destruct (Nat.eqb_spec (S m) N); [auto|lia]. }
  pose proof (sumn_le m _ _ B1) as S1. cbv beta in S1.
  match goal with |- ?x0 - ?y + ?z <= _ => assert (X0 : x0 = 0) by ring; rewrite X0 end. lra.
Qed.

(** the two factors of the scattering sum, in the norm with the angular widths *)
Lemma scatter_point (p : nat -> R) : sumn K (fun a => awidth K (mus c) a * p a) * sumn K (fun l => wsa c l * p l) <= kappa c * sumn K (fun a => awidth K (mus c) a * p a ^ 2).
Proof.
  set (q := awidth K (mus c)). assert (Hq : forall a, (a < K)%nat -> 0 < q a) by (intros; now apply awidth_pos).
  set (S2 := sumn K (fun a => q a * p a ^ 2)). assert (HS : 0 <= S2) by (apply sumn_nonneg; intros; apply Rmult_le_pos; [apply Rlt_le; auto|apply pow2_ge_0]).
  set (w2 := sumn K (fun a => wsa c a ^ 2 / q a)).
  assert (Hw2 : 0 <= w2) by (apply sumn_nonneg; intros; unfold Rdiv; apply Rmult_le_pos; [apply pow2_ge_0|apply Rlt_le, Rinv_0_lt_compat; auto]).
  assert (sq : forall a, (a < K)%nat -> sqrt (q a) * sqrt (q a) = q a) by (intros a Ha; apply sqrt_sqrt; apply Rlt_le; auto).
  assert (sp : forall a, (a < K)%nat -> 0 < sqrt (q a)) by (intros; apply sqrt_lt_R0; auto).
  assert (B1 : sumn K (fun a => q a * p a) ^ 2 <= 2 * S2).
  { pose proof (cs_sum K (fun a => sqrt (q a)) (fun a => sqrt (q a) * p a)) as X.
    rewrite (sumn_ext K _ (fun a => q a * p a)) in X by (intros a Ha; rewrite <- (sq a Ha) at 3; ring).
    rewrite (sumn_ext K (fun i => sqrt (q i) ^ 2) q) in X by (intros a Ha; rewrite <- (sq a Ha) at 2; ring).
    rewrite (sumn_ext K (fun i => (sqrt (q i) * p i) ^ 2) (fun a => q a * p a ^ 2)) in X by (intros a Ha; rewrite <- (sq a Ha) at 2; ring).
    assert (W2 : sumn K q = 2) by (unfold q; apply widths_sum; auto). rewrite W2 in X. exact X. }
  assert (B2 : sumn K (fun l => wsa c l * p l) ^ 2 <= w2 * S2).
  { pose proof (cs_sum K (fun a => wsa c a / sqrt (q a)) (fun a => sqrt (q a) * p a)) as X.
    rewrite (sumn_ext K _ (fun l => wsa c l * p l)) in X by (intros a Ha; field; pose proof (sp a Ha); lra).
    rewrite (sumn_ext K (fun i => (wsa c i / sqrt (q i)) ^ 2) (fun a => wsa c a ^ 2 / q a)) in X by (intros a Ha; rewrite <- (sq a Ha) at 2; field; pose proof (sp a Ha); lra).
    rewrite (sumn_ext K (fun i => (sqrt (q i) * p i) ^ 2) (fun a => q a * p a ^ 2)) in X by (intros a Ha; rewrite <- (sq a Ha) at 2; ring). exact X. }
  assert (KK : kappa c ^ 2 = 2 * w2) by (unfold kappa; rewrite <- (sqrt_sqrt (2 * w2)) by lra; fold K q w2; ring).
  assert (K0 : 0 <= kappa c) by apply sqrt_pos.
  set (A := sumn K (fun a => q a * p a)) in *. set (B := sumn K (fun l => wsa c l * p l)) in *.
  apply Rsqr_incr_0_var; [|apply Rmult_le_pos; auto]. unfold Rsqr.
  replace (A * B * (A * B)) with (A ^ 2 * B ^ 2) by ring. replace (kappa c * S2 * (kappa c * S2)) with ((2 * S2) * (w2 * S2)) by (replace (kappa c * S2 * (kappa c * S2)) with (kappa c ^ 2 * S2 * S2) by ring; rewrite KK; ring).
  apply Rmult_le_compat; try apply pow2_ge_0; auto.
Qed.

Variables (lam gam : R).
Hypothesis Hlam : 0 < lam.
Hypothesis Hgam : 0 <= gam.
Hypothesis Hoff : forall a s, (a < K)%nat -> (s < N)%nat -> 8 * (INR M + 1) ^ 2 * offset c a <= gam * (E (S s) t - E s t).
Hypothesis Hsig : 0 <= sigma_s c.

Lemma P_cont a s x : (s < N)%nat -> continuous (P a s t) x.
Proof. intros Hs. unfold P, psi_at. apply sph_field_cont. exact (He0 s Hs). Qed.
Lemma P_deg a s : (s < N)%nat -> deg_le M (P a s t).
Proof. intros Hs. unfold P, psi_at. fold fc M. apply sphere_field_deg. exact (He0 s Hs). Qed.

Lemma offset_bound a s : (a < K)%nat -> (s < N)%nat ->
  2 * offset c a * RInt (fun x => x * P a s t x ^ 2) (E s t) (E (S s) t) <= gam * RInt (fun x => x ^ 2 * P a s t x ^ 2) (E s t) (E (S s) t).
Proof.
  intros Ha Hs. pose proof (He0 s Hs) as Hab. cbv beta in Hab. pose proof (e_nonneg s ltac:(lia)) as H0.
  assert (X1 : 0 <= RInt (fun x => x * P a s t x ^ 2) (E s t) (E (S s) t)).
  { apply RInt_ge_0; [lra|apply ex_int; intros; apply cmult; [apply cid|apply cpow, P_cont; auto]|]. intros x Hx. apply Rmult_le_pos; [lra|apply pow2_ge_0]. }
  assert (X2 : 0 <= RInt (fun x => x ^ 2 * P a s t x ^ 2) (E s t) (E (S s) t)) by (apply (W2_pos M _ _ _ Hab (P_deg a s Hs))).
  destruct (Rle_lt_dec (offset c a) 0) as [L|L].
  - assert (0 <= gam * RInt (fun x => x ^ 2 * P a s t x ^ 2) (E s t) (E (S s) t)) by (apply Rmult_le_pos; auto). nra.
  - pose proof (poly_half M (E s t) (E (S s) t) (P a s t) Hab (P_deg a s Hs) H0) as X3.
    apply Rle_trans with (2 * offset c a * (4 * (INR M + 1) ^ 2 / (E (S s) t - E s t) * RInt (fun x => x ^ 2 * P a s t x ^ 2) (E s t) (E (S s) t))).
    + apply Rmult_le_compat_l; [lra|exact X3].
    + rewrite <- Rmult_assoc. apply Rmult_le_compat_r; [auto|].
      apply Rmult_le_reg_r with (E (S s) t - E s t); [lra|]. pose proof (Hoff a s Ha Hs).
      replace (2 * offset c a * (4 * (INR M + 1) ^ 2 / (E (S s) t - E s t)) * (E (S s) t - E s t)) with (8 * (INR M + 1) ^ 2 * offset c a) by (field; lra). auto.
Qed.

Lemma err_rate : exists r : R, is_derive (sph_energy c E W) t r /\
  r <= (gam + 2 * (kappa c * sigma_s c - 1) + 2 * lam) * sph_energy c E W t + sph_defects c E psi ang em lam t.
Proof.
  pose (q := awidth K (mus c)). assert (Hq : forall a, (a < K)%nat -> 0 < q a) by (intros; now apply awidth_pos).
  pose (tau := fun a s => - 2 * mus c a * RInt (fun x => x * P a s t x ^ 2) (E s t) (E (S s) t) - 2 * RInt (fun x => x * (P a s t x * aterm K (mus c) (fun l => P l s t x) a)) (E s t) (E (S s) t)).
  pose (sct := fun a s => RInt (fun x => x ^ 2 * P a s t x * sumn K (fun l => wsa c l * P l s t x)) (E s t) (E (S s) t)).
  pose (en := fun a s => RInt (fun x => x ^ 2 * P a s t x ^ 2) (E s t) (E (S s) t)).
  pose (ra := fun a s => 2 * RInt (fun x => x * P a s t x * adefect c E psi ang a s t x) (E s t) (E (S s) t)).
  pose (rs := fun a s => - 2 * sigma_s c * RInt (fun x => x ^ 2 * P a s t x * sdefect c psi em s t x) (E s t) (E (S s) t)).
  pose (fd := fun a s => E (S s) t ^ 2 * Rabs (mus c a - D (S s) t) * fdefect c E psi a s t ^ 2).
  assert (DA : forall a, (a < K)%nat -> exists d : R, is_derive (fun w => sumn N (fun s => sq_content M E (W a s) s w)) t d /\
     d <= sumn N (fun s => fd a s + tau a s + 2 * sigma_s c * sct a s - 2 * en a s + ra a s + rs a s)).
  { intros a Ha. destruct (err_faces a Ha) as (v & Fv & ES). eexists. split.
    - apply (dd_sumn N (fun s w => sq_content M E (W a s) s w)). intros s Hs. apply (err_cell a s (v s) (v (S s)) Ha Hs).
      + destruct (Nat.eq_dec s 0) as [Z|Z].
        * rewrite Z. apply Fv. lia.
        * eapply face_refl; [lia|]. apply Fv. lia.
      + eapply face_refl; [lia|]. apply Fv. exact Hs.
    - cbv beta.
      apply Rle_trans with (sumn N (fun s => E s t ^ 2 * (mus c a - D s t) * (2 * (v s - psi a s (E s t) t) * P a s t (E s t) - P a s t (E s t) ^ 2)
        - E (S s) t ^ 2 * (mus c a - D (S s) t) * (2 * (v (S s) - psi a s (E (S s) t) t) * P a s t (E (S s) t) - P a s t (E (S s) t) ^ 2))
        + sumn N (fun s => tau a s + 2 * sigma_s c * sct a s - 2 * en a s + ra a s + rs a s)).
      + apply Req_le. rewrite <- sumn_plus. apply sumn_ext. intros s Hs. unfold tau, sct, en, ra, rs. ring.
      + apply Rle_trans with (sumn N (fd a) + sumn N (fun s => tau a s + 2 * sigma_s c * sct a s - 2 * en a s + ra a s + rs a s)).
        * apply Rplus_le_compat_r. exact ES.
        * apply Req_le. rewrite <- sumn_plus. apply sumn_ext. intros. ring. }
  destruct (fin_choice R K _ (ex_intro _ 0 I) DA) as (d & Hd).
  exists (sumn K (fun a => q a * d a)). split.
  { unfold sph_energy. fold K fc N q. apply (dd_sumn K (fun a w => q a * sumn N (fun s => sq_content M E (W a s) s w))).
    intros a Ha. apply dd_scal. now apply Hd. }
  apply Rle_trans with (sumn K (fun a => q a * sumn N (fun s => fd a s + tau a s + 2 * sigma_s c * sct a s - 2 * en a s + ra a s + rs a s))).
  { apply sumn_le. intros a Ha. apply Rmult_le_compat_l; [apply Rlt_le; auto|]. now apply Hd. }
  assert (SW : forall f : nat -> nat -> R, sumn K (fun a => q a * sumn N (fun s => f a s)) = sumn N (fun s => sumn K (fun a => q a * f a s))).
  { intros f. rewrite (sumn_ext K _ (fun a => sumn N (fun s => q a * f a s))) by (intros; now rewrite <- sumn_scal). apply sumn_swap. }
  assert (CT : forall a s x, (s < N)%nat -> continuous (fun x => aterm K (mus c) (fun l => P l s t x) a) x).
  { intros a s x Hs. apply (aterm_cont K (mus c) a (fun l x => P l s t x)). intros. now apply P_cont. }
  (* the angular terms leave the offsets *)
  assert (TS : forall s, (s < N)%nat -> sumn K (fun a => q a * tau a s) = sumn K (fun a => q a * (2 * offset c a * RInt (fun x => x * P a s t x ^ 2) (E s t) (E (S s) t)))).
  { intros s Hs. assert (CP : forall a x, continuous (P a s t) x) by (intros; now apply P_cont).
    assert (C1 : forall a x, continuous (fun x => x * (P a s t x * aterm K (mus c) (fun l => P l s t x) a)) x) by (intros; apply cmult; [apply cid|apply cmult; auto]).
    assert (C2 : forall a x, continuous (fun x => x * P a s t x ^ 2) x) by (intros; apply cmult; [apply cid|apply cpow; auto]).
    assert (QQ : sumn K (fun a => q a * RInt (fun x => x * (P a s t x * aterm K (mus c) (fun l => P l s t x) a)) (E s t) (E (S s) t))
       = - (1 / 2) * sumn K (fun a => q a * ((aedge K (mus c) a + aedge K (mus c) (S a)) * RInt (fun x => x * P a s t x ^ 2) (E s t) (E (S s) t)))).
    { eapply int_uniq2.
      - apply int_sumn. intros a _. apply int_scal. apply int_val. apply C1.
      - apply (int_ext (fun x => - (1 / 2) * sumn K (fun a => q a * ((aedge K (mus c) a + aedge K (mus c) (S a)) * (x * P a s t x ^ 2))))).
        + intros x. transitivity (x * (- (1 / 2) * sumn K (fun a => q a * ((aedge K (mus c) a + aedge K (mus c) (S a)) * P a s t x ^ 2)))).
          * rewrite <- !sumn_scal. apply sumn_ext. intros; ring.
          * unfold q. rewrite <- aterm_self, <- sumn_scal by auto. apply sumn_ext. intros; ring.
        + apply int_scal, int_sumn. intros a _. apply int_scal, int_scal, int_val. apply C2. }
    transitivity (sumn K (fun a => -2 * (q a * (mus c a * RInt (fun x => x * P a s t x ^ 2) (E s t) (E (S s) t))) + -2 * (q a * RInt (fun x => x * (P a s t x * aterm K (mus c) (fun l => P l s t x) a)) (E s t) (E (S s) t)))).
    { apply sumn_ext. intros. unfold tau. ring. }
    rewrite sumn_plus, !sumn_scal, QQ, <- !sumn_scal, <- sumn_plus. apply sumn_ext. intros. unfold offset. fold K. field. }
  (* scattering *)
  assert (SC : forall s, (s < N)%nat -> sumn K (fun a => q a * sct a s) <= kappa c * sumn K (fun a => q a * en a s)).
  { intros s Hs. pose proof (He0 s Hs) as Hab. cbv beta in Hab. assert (CP : forall a x, continuous (P a s t) x) by (intros; now apply P_cont).
    assert (CW : forall x, continuous (fun x => sumn K (fun l => wsa c l * P l s t x)) x).
    { intros x. apply (cont_sumn K (fun l y => wsa c l * P l s t y)). intros. apply cmult; [apply cconst|apply CP]. }
    assert (I1 : is_RInt (fun x => x ^ 2 * (sumn K (fun a => q a * P a s t x) * sumn K (fun l => wsa c l * P l s t x))) (E s t) (E (S s) t) (sumn K (fun a => q a * sct a s))).
    { apply (int_ext (fun x => sumn K (fun a => q a * (x ^ 2 * P a s t x * sumn K (fun l => wsa c l * P l s t x))))).
      - intros x. rewrite <- sumn_scal_r, <- sumn_scal. apply sumn_ext. intros; ring.
      - apply int_sumn. intros a _. apply int_scal, int_val. intros. apply cmult; [apply cmult; [apply cpow, cid|apply CP]|apply CW]. }
    assert (I2 : is_RInt (fun x => x ^ 2 * (kappa c * sumn K (fun a => q a * P a s t x ^ 2))) (E s t) (E (S s) t) (kappa c * sumn K (fun a => q a * en a s))).
    { apply (int_ext (fun x => kappa c * sumn K (fun a => q a * (x ^ 2 * P a s t x ^ 2)))).
      - intros x. rewrite (sumn_ext K _ (fun a => x ^ 2 * (q a * P a s t x ^ 2))) by (intros; ring). rewrite sumn_scal. ring.
      - apply int_scal, int_sumn. intros a _. apply int_scal, int_val. intros. apply cmult; [apply cpow, cid|apply cpow, CP]. }
    apply (is_RInt_le _ _ _ _ _ _ (Rlt_le _ _ Hab) I1 I2). intros x _. apply Rmult_le_compat_l; [apply pow2_ge_0|]. apply scatter_point. }
  (* residuals *)
  assert (RA : forall a s, (a < K)%nat -> (s < N)%nat -> ra a s <= lam * en a s + / lam * RInt (fun x => adefect c E psi ang a s t x ^ 2) (E s t) (E (S s) t)).
  { intros a s Ha Hs. pose proof (He0 s Hs) as Hab. cbv beta in Hab. assert (CP : forall x, continuous (P a s t) x) by (intros; now apply P_cont).
    assert (CA := adef_c c E Q psi ang em t0 t1 HX t Ht He0 a s Ha Hs).
    apply (is_RInt_le (fun x => 2 * (x * P a s t x * adefect c E psi ang a s t x)) (fun x => lam * (x ^ 2 * P a s t x ^ 2) + / lam * adefect c E psi ang a s t x ^ 2) (E s t) (E (S s) t)); [lra| | |].
    - apply int_scal, int_val. intros. apply cmult; [apply cmult; [apply cid|apply CP]|apply CA].
    - apply int_plus; apply int_scal, int_val; intros; [apply cmult; [apply cpow, cid|apply cpow, CP]|apply cpow, CA].
    - intros x _. apply Rmult_le_reg_l with lam; [auto|].
      replace (lam * (lam * (x ^ 2 * P a s t x ^ 2) + / lam * adefect c E psi ang a s t x ^ 2)) with ((lam * (x * P a s t x)) ^ 2 + adefect c E psi ang a s t x ^ 2) by (field; lra).
      pose proof (pow2_ge_0 (lam * (x * P a s t x) - adefect c E psi ang a s t x)). nra. }
  assert (RS : forall a s, (a < K)%nat -> (s < N)%nat -> rs a s <= lam * en a s + sigma_s c ^ 2 / lam * RInt (fun x => x ^ 2 * sdefect c psi em s t x ^ 2) (E s t) (E (S s) t)).
  { intros a s Ha Hs. pose proof (He0 s Hs) as Hab. cbv beta in Hab. assert (CP : forall x, continuous (P a s t) x) by (intros; now apply P_cont).
    assert (CS := sdef_c c E Q psi ang em t0 t1 HX t Ht a s Ha Hs).
    apply (is_RInt_le (fun x => - 2 * sigma_s c * (x ^ 2 * P a s t x * sdefect c psi em s t x)) (fun x => lam * (x ^ 2 * P a s t x ^ 2) + sigma_s c ^ 2 / lam * (x ^ 2 * sdefect c psi em s t x ^ 2)) (E s t) (E (S s) t)); [lra| | |].
    - apply int_scal, int_val. intros. apply cmult; [apply cmult; [apply cpow, cid|apply CP]|apply CS].
    - apply int_plus; apply int_scal, int_val; intros; (apply cmult; [apply cpow, cid|apply cpow]); [apply CP|apply CS].
    - intros x _. apply Rmult_le_reg_l with lam; [auto|].
      replace (lam * (lam * (x ^ 2 * P a s t x ^ 2) + sigma_s c ^ 2 / lam * (x ^ 2 * sdefect c psi em s t x ^ 2))) with ((lam * (x * P a s t x)) ^ 2 + (sigma_s c * (x * sdefect c psi em s t x)) ^ 2) by (field; lra).
      pose proof (pow2_ge_0 (lam * (x * P a s t x) + sigma_s c * (x * sdefect c psi em s t x))). nra. }
  unfold sph_defects, sph_energy. fold K fc N q. 
  change (sumn K (fun a => q a * sumn N (fun s => RInt (fun x => x ^ 2 * psi_at c E W a s t x ^ 2) (E s t) (E (S s) t)))) with (sumn K (fun a => q a * sumn N (fun s => en a s))).
  rewrite (SW en).
  rewrite (SW (fun a s => fd a s + tau a s + 2 * sigma_s c * sct a s - 2 * en a s + ra a s + rs a s)).
  rewrite (SW (fun a s => E (S s) t ^ 2 * Rabs (mus c a - r_Dedges c t (S s)) * fdefect c E psi a s t ^ 2 + / lam * RInt (fun x => adefect c E psi ang a s t x ^ 2) (E s t) (E (S s) t)
      + sigma_s c ^ 2 / lam * RInt (fun x => x ^ 2 * sdefect c psi em s t x ^ 2) (E s t) (E (S s) t))).
  rewrite <- sumn_scal, <- sumn_plus. apply sumn_le. intros s Hs.
  set (A3 := fun a => / lam * RInt (fun x => adefect c E psi ang a s t x ^ 2) (E s t) (E (S s) t)).
  set (S3 := sigma_s c ^ 2 / lam * RInt (fun x => x ^ 2 * sdefect c psi em s t x ^ 2) (E s t) (E (S s) t)).
  rewrite (sumn_ext K _ (fun a => (q a * tau a s + 2 * sigma_s c * (q a * sct a s)) + q a * (fd a s - 2 * en a s + ra a s + rs a s))) by (intros; ring).
  rewrite !sumn_plus, sumn_scal, TS by auto.
  pose proof (SC s Hs) as SCs. pose proof (Rmult_le_compat_l (2 * sigma_s c) _ _ ltac:(lra) SCs) as SC2.
  assert (T2 : sumn K (fun a => q a * (2 * offset c a * RInt (fun x => x * P a s t x ^ 2) (E s t) (E (S s) t))) <= gam * sumn K (fun a => q a * en a s)).
  { rewrite <- sumn_scal. apply sumn_le. intros a Ha. pose proof (offset_bound a s Ha Hs). replace (gam * (q a * en a s)) with (q a * (gam * en a s)) by ring. apply Rmult_le_compat_l; [apply Rlt_le; auto|]. assumption. }
  assert (T3 : sumn K (fun a => q a * (fd a s - 2 * en a s + ra a s + rs a s)) <= (2 * lam - 2) * sumn K (fun a => q a * en a s) + sumn K (fun a => q a * (fd a s + A3 a + S3))).
  { rewrite <- sumn_scal, <- sumn_plus. apply sumn_le. intros a Ha. pose proof (RA a s Ha Hs) as X1. pose proof (RS a s Ha Hs) as X2. fold (A3 a) in X1. fold S3 in X2.
    replace ((2 * lam - 2) * (q a * en a s) + q a * (fd a s + A3 a + S3)) with (q a * ((2 * lam - 2) * en a s + (fd a s + A3 a + S3))) by ring.
    apply Rmult_le_compat_l; [apply Rlt_le; auto|]. lra. }
  eapply Rle_trans; [|apply Rplus_le_compat_l; apply Req_le; exact (eq_refl (sumn K (fun a => q a * (fd a s + A3 a + S3))))].
  lra.
Qed.
End Rate.
