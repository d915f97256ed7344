(** The spherical update as a weak form, and the balance of cell contents. *)
From Coq Require Import ZArith QArith Qreals.
From Verif Require Import Py PyLemmas Legendre Cheb DGModel DGSpec DGProofs DGInt DGBalance DGFinal GmatModel MatModel RhsModel SpherePoly SphereProofs SphereBal.
Open Scope R_scope.

(** numpy's inverse does what it should on this matrix *)
Definition inverts (n : nat) (A B : nat -> nat -> R) : Prop :=
  forall x i, (i < n)%nat -> dotv n A (fun j => dotv n B x j) i = x i.
(** weighted moment i of the expansion with coefficients U on cell s at time w *)
Definition moment (c : flux_cfg) (E : nat -> R -> R) (U : nat -> R -> R) (s i : nat) (w : R) : R :=
  RInt (fun x => x ^ 2 * basis Sphere i x (E s w) (E (S s) w) * field Sphere (fM c) (fun j => U j w) (E s w) (E (S s) w) x) (E s w) (E (S s) w).
Definition sph_content (c : flux_cfg) (E : nat -> R -> R) (U : nat -> R -> R) (s : nat) (w : R) : R :=
  RInt (fun x => x ^ 2 * field Sphere (fM c) (fun j => U j w) (E s w) (E (S s) w) x) (E s w) (E (S s) w).

Lemma int_dot (f : R -> R) M U a b (A : nat -> nat -> R) i :
  (forall j, (j < M + 1)%nat -> is_RInt (fun x => f x * basis Sphere j x a b) a b (A i j)) ->
  is_RInt (fun x => f x * field Sphere M U a b x) a b (dotv (M + 1) A U i).
Proof.
  intros H. apply (int_ext (fun x => sumn (M + 1) (fun j => U j * (f x * basis Sphere j x a b)))).
  { intro x. unfold field. rewrite <- sumn_scal. apply sumn_ext. intros; ring. }
  eapply int_eq; [apply int_sumn; intros j Hj; apply int_scal, H; auto|].
  unfold dotv. apply sumn_ext. intros; ring.
Qed.
Lemma over_pi_ok n f : (forall i j, (i < n)%nat -> (j < n)%nat -> exists g, f i j = Some g) ->
  over_pi n f = Ok (fun i j => match f i j with Some g => g / PI | None => 0 end).
Proof.
  intros H. unfold over_pi.
  replace (forallb _ (seq 0 n)) with true; auto. symmetry. apply forallb_forall. intros i Hi. apply forallb_forall. intros j Hj.
  apply in_seq in Hi, Hj. destruct (H i j) as (g & ->); auto; lia.
Qed.
Lemma over_pi_err n f i j : (i < n)%nat -> (j < n)%nat -> f i j = None -> over_pi n f = Err TypeError.
Proof.
  intros Hi Hj H. unfold over_pi. replace (forallb _ (seq 0 n)) with false; auto. symmetry.
  apply not_true_is_false. intro F. rewrite forallb_forall in F.
  specialize (F i). rewrite in_seq in F. specialize (F ltac:(lia)). rewrite forallb_forall in F.
  specialize (F j). rewrite in_seq in F. specialize (F ltac:(lia)). now rewrite H in F.
Qed.
Lemma over_pi_inv n f A : over_pi n f = Ok A -> forall i j, (i < n)%nat -> (j < n)%nat -> exists g, f i j = Some g /\ A i j = g / PI.
Proof.
  unfold over_pi. destruct (forallb _ (seq 0 n)) eqn:F; [|discriminate]. intros H. injection H as <-. intros i j Hi Hj.
  rewrite forallb_forall in F. specialize (F i). rewrite in_seq in F. specialize (F ltac:(lia)). rewrite forallb_forall in F.
  specialize (F j). rewrite in_seq in F. specialize (F ltac:(lia)). destruct (f i j) as [g|]; [eauto|discriminate].
Qed.
Lemma G_entry i j a b a' b' g : a <> b -> GMatrix i j a b a' b' = Some g -> g = Gform i j a b a' b'.
Proof.
  intros H E. destruct (le_lt_dec i 10) as [Hi|Hi]; [|rewrite G_out in E by auto; discriminate].
  destruct (le_lt_dec j 10) as [Hj|Hj]; [|rewrite G_out in E by auto; discriminate].
  rewrite (G_table i j Hi Hj a b a' b' H) in E. congruence.
Qed.
Lemma M_entry i j a b a' b' g : MPRIME i j a b a' b' = Some g -> g = M'form i j a b a' b'.
Proof.
  intros E. destruct (le_lt_dec i 10) as [Hi|Hi]; [|rewrite M_out in E by auto; discriminate].
  destruct (le_lt_dec j 10) as [Hj|Hj]; [|rewrite M_out in E by auto; discriminate].
  rewrite (M_table i j Hi Hj a b a' b') in E. congruence.
Qed.
Lemma dotv_add n A x y i : dotv n A (fun j => x j + y j) i = dotv n A x i + dotv n A y i.
Proof. unfold dotv. rewrite <- sumn_plus. apply sumn_ext; intros; ring. Qed.
Lemma dotv_scal n A x k i : dotv n A (fun j => k * x j) i = k * dotv n A x i.
Proof. unfold dotv. rewrite <- sumn_scal. apply sumn_ext; intros; ring. Qed.
Lemma dotv_ext n A B x y i : (forall j, (j < n)%nat -> A i j = B i j) -> (forall j, (j < n)%nat -> x j = y j) -> dotv n A x i = dotv n B y i.
Proof. intros H1 H2. unfold dotv. apply sumn_ext. intros j Hj. now rewrite H1, H2. Qed.

Section W.
Variables (c : rhs_cfg) (t : R) (E : nat -> R -> R) (V : nat -> nat -> nat -> R -> R) (st : nat -> flux_state).
Let fc := rflux c.
Let n := (fM fc + 1)%nat.
Let Vt := fun l k j => V l k j t.
Let D := r_Dedges c t.
Hypothesis Hg : fgeom fc = Sphere.
Hypothesis HN : (2 <= fN fc)%nat.
Hypothesis HE : forall k, r_edges c t k = E k t.
Hypothesis He : increasing (fN fc) (fun k => E k t).
Hypothesis HD : forall k, (k <= fN fc)%nat -> is_derive (E k) t (D k).
Variables (s : nat) (W : nat -> nat -> R).
Hypothesis Hs : (s < fN fc)%nat.
Let aa := E s t.
Let bb := E (S s) t.
Hypothesis HW : rhs_space c st t Vt s = Ok W.
Hypothesis HM : mass_exact (tabs c) n aa bb.
Hypothesis HJ : J_exact (tabs c) n aa bb.
Hypothesis HL : L_exact (tabs c) n aa bb.
Hypothesis Hinv : inverts n (make_mass_sphere (tabs c) aa bb) (inv c (make_mass_sphere (tabs c) aa bb)).
Variable a : nat.
Hypothesis HV : forall j, (j < n)%nat -> is_derive (V a s j) t (W a j).

Definition dterm (c : rhs_cfg) (V : nat -> nat -> nat -> R) (s a j : nat) : R :=
  finite_diff_uneven (mus c) a (fun l => V l s j) (a =? 0)%nat (a =? N_ang c - 1)%nat.

Lemma ab : aa < bb. Proof. exact (He s Hs). Qed.
Lemma HW_inv : exists G MPR, make_G_sphere n aa bb (D s) (D (S s)) = Ok G /\ make_MPRIME n aa bb (D s) (D (S s)) = Ok MPR /\
  forall i, W a i = sphere_cell c (st a) t G MPR Vt s a i.
Proof.
  clear HM HJ HL Hinv HV. unfold rhs_space in HW. fold fc in HW. rewrite Hg in HW. cbv zeta in HW. rewrite !HE, !Nat.add_1_r in HW.
  unfold n. rewrite Nat.add_1_r. fold D in HW. fold aa bb in HW.
  destruct (make_G_sphere (S (fM fc)) aa bb (D s) (D (S s))) as [G|] eqn:EG; [|discriminate]. cbn [bind] in HW.
  destruct (make_MPRIME (S (fM fc)) aa bb (D s) (D (S s))) as [Mp|] eqn:EM; [|discriminate]. cbn [bind] in HW.
  destruct (_ && _) in HW; [discriminate|]. injection HW as <-. exists G, Mp. auto.
Qed.
Let psi (U : nat -> R) := field Sphere (fM fc) U aa bb.
Let B i x := basis Sphere i x aa bb.
Let refl := Vt (refl_index c s a) 0%nat.

Lemma edges_fun : r_edges c t = fun k => E k t.
Proof. apply FunctionalExtensionality.functional_extensionality. exact HE. Qed.

(** what the update gives for M dU/dt *)
Lemma mass_update i : (i < n)%nat -> exists vl vr G MPR,
  face fc t (fun k => E k t) D (Vt a) (mus c a) refl s vl /\ face fc t (fun k => E k t) D (Vt a) (mus c a) refl (S s) vr /\
  make_G_sphere n aa bb (D s) (D (S s)) = Ok G /\ make_MPRIME n aa bb (D s) (D (S s)) = Ok MPR /\
  dotv n (make_mass_sphere (tabs c) aa bb) (W a) i =
   - (B i bb * (bb ^ 2 * (mus c a - D (S s)) * vr) - B i aa * (aa ^ 2 * (mus c a - D s) * vl))
   + mus c a * dotv n (make_L_sphere (tabs c) aa bb) (Vt a s) i - dotv n (make_J_sphere (tabs c) aa bb) (dterm c Vt s a) i
   + dotv n G (Vt a s) i + 1 / 2 * sigma_s c * Src c t aa bb i - dotv n MPR (Vt a s) i
   + sigma_s c * dotv n (make_mass_sphere (tabs c) aa bb) (make_P (N_ang c) (wsa c) (fun l j => Vt l s j)) i
   - dotv n (make_mass_sphere (tabs c) aa bb) (Vt a s) i.
Proof.
  intros Hi. destruct HW_inv as (G & MPR & EG & EM & EW).
  destruct (LU_formula fc t (fun k => E k t) D (Vt a) (mus c a) refl HN He (st a) s i Hs) as (vl & vr & F1 & F2 & EL).
  exists vl, vr, G, MPR. split; [auto|split; [auto|split; [auto|split; [auto|]]]].
  rewrite Hg in EL. cbn [wt] in EL. fold aa bb in EL. unfold B. rewrite <- EL.
  set (RHS := fun k => - snd (make_LU fc (st a) t (fun k => E k t) D (Vt a) s (mus c a) refl) k
    + mus c a * dotv n (make_L_sphere (tabs c) aa bb) (Vt a s) k - dotv n (make_J_sphere (tabs c) aa bb) (dterm c Vt s a) k
    + dotv n G (Vt a s) k + 1 / 2 * Src c t aa bb k * sigma_s c - dotv n MPR (Vt a s) k).
  set (Minv := inv c (make_mass_sphere (tabs c) aa bb)).
  rewrite (dotv_ext n _ (make_mass_sphere (tabs c) aa bb) (W a)
     (fun j => dotv n Minv RHS j + (sigma_s c * make_P (N_ang c) (wsa c) (fun l j => Vt l s j) j + -1 * Vt a s j))); auto.
  - rewrite !dotv_add, !dotv_scal. replace (dotv n (make_mass_sphere (tabs c) aa bb) (dotv n Minv RHS) i) with (RHS i) by (symmetry; exact (Hinv RHS i Hi)). unfold RHS. ring.
  - intros j Hj. rewrite EW. unfold sphere_cell. cbv zeta. rewrite edges_fun, Nat.add_1_r. fold aa bb fc. fold D. fold refl.
    unfold Minv, RHS, n. rewrite ?Nat.add_1_r. change (E (S s) t) with bb.
    destruct (Reqb_spec (sigma_s c) 0) as [E0|E0].
    + rewrite E0. unfold dterm. ring.
    + unfold dterm. ring.
Qed.

Lemma moment_val (U : nat -> R -> R) i w : E s w < E (S s) w ->
  moment fc E U s i w = sumn n (fun j => Mform i j (E s w) (E (S s) w) / PI * U j w).
Proof.
  intros H. apply int_uniq. apply (int_dot (fun x => x ^ 2 * basis Sphere i x (E s w) (E (S s) w)) (fM fc) (fun j => U j w) _ _ (fun i j => Mform i j (E s w) (E (S s) w) / PI)).
  intros j _. now apply mass_is.
Qed.
Lemma loc_s : locally t (fun w => E s w < E (S s) w).
Proof. eapply locally_lt; [apply HD; lia|apply HD; lia|]. apply ab. Qed.

Lemma mass_entry i j : (i < n)%nat -> (j < n)%nat -> make_mass_sphere (tabs c) aa bb i j = Mform i j aa bb / PI.
Proof. intros. eapply int_uniq2; [apply HM; auto|]. apply mass_is, ab. Qed.

Lemma moment_dt i : (i < n)%nat ->
  is_derive (moment fc E (V a s) s i) t
    (sumn n (fun j => M'form i j aa bb (D s) (D (S s)) / PI * V a s j t) + dotv n (make_mass_sphere (tabs c) aa bb) (W a) i).
Proof.
  intros Hi. apply (dd_loc (fun w => sumn n (fun j => Mform i j (E s w) (E (S s) w) / PI * V a s j w))).
  - generalize loc_s. apply filter_imp. intros w Hw. now rewrite moment_val.
  - eapply dd_eq.
    + apply dd_sumn. intros j Hj. apply dd_mult; [apply dd_divc; apply (Mform_dt (E s) (E (S s)) t (D s) (D (S s))); apply HD; lia|apply HV; auto].
    + cbv beta. rewrite sumn_plus. f_equal. unfold dotv. apply sumn_ext. intros j Hj. now rewrite mass_entry.
Qed.
Lemma sph_weak i : (i < n)%nat -> exists vl vr Iv,
  face fc t (fun k => E k t) D (Vt a) (mus c a) refl s vl /\ face fc t (fun k => E k t) D (Vt a) (mus c a) refl (S s) vr /\
  is_RInt (fun x =>
     x ^ 2 * (Derive (fun w => basis Sphere i x (E s w) (E (S s) w)) t + mus c a * Derive (fun y => B i y) x) * psi (Vt a s) x
     - x * B i x * psi (dterm c Vt s a) x
     + x ^ 2 * B i x * (sigma_s c * sumn (N_ang c) (fun l => wsa c l * psi (Vt l s) x) - psi (Vt a s) x)) aa bb Iv /\
  is_derive (moment fc E (V a s) s i) t
    (Iv - (B i bb * (bb ^ 2 * (mus c a - D (S s)) * vr) - B i aa * (aa ^ 2 * (mus c a - D s) * vl))
     + 1 / 2 * sigma_s c * Src c t aa bb i).
Proof.
  intros Hi. destruct (mass_update i Hi) as (vl & vr & G & MPR & F1 & F2 & EG & EM & EU).
  exists vl, vr. eexists. split; [auto|split; [auto|split]].
  - apply (int_ext (fun x =>
     x ^ 2 * Derive (fun w => basis Sphere i x (E s w) (E (S s) w)) t * psi (Vt a s) x
     + mus c a * (x ^ 2 * Derive (fun y => B i y) x * psi (Vt a s) x)
     - x * B i x * psi (dterm c Vt s a) x
     + (sigma_s c * (x ^ 2 * B i x * psi (make_P (N_ang c) (wsa c) (fun l j => Vt l s j)) x) - x ^ 2 * B i x * psi (Vt a s) x))).
    { intro x. replace (sumn (N_ang c) (fun l => wsa c l * psi (Vt l s) x)) with (psi (make_P (N_ang c) (wsa c) (fun l j => Vt l s j)) x); [ring|].
      unfold psi, field, make_P. symmetry. erewrite sumn_ext by (intros l _; rewrite <- sumn_scal; reflexivity). rewrite sumn_swap.
      apply sumn_ext. intros j _. rewrite <- sumn_scal_r. apply sumn_ext. intros; ring. }
    apply int_plus; [apply int_minus; [apply int_plus|]|apply int_minus].
    + apply (int_dot (fun x => x ^ 2 * Derive (fun w => basis Sphere i x (E s w) (E (S s) w)) t) _ _ _ _ (fun i j => Gform i j aa bb (D s) (D (S s)) / PI)).
      intros j _. apply (cmotion_is (E s) (E (S s)) t (D s) (D (S s))); [apply HD; lia|apply HD; lia|apply ab].
    + apply int_scal. apply (int_dot (fun x => x ^ 2 * Derive (fun y => B i y) x) _ _ _ _ (make_L_sphere (tabs c) aa bb)).
      intros j Hj. apply (HL i j); auto.
    + apply (int_dot (fun x => x * B i x) _ _ _ _ (make_J_sphere (tabs c) aa bb)). intros j Hj. apply (HJ i j); auto.
    + apply int_scal. apply (int_dot (fun x => x ^ 2 * B i x) _ _ _ _ (make_mass_sphere (tabs c) aa bb)). intros j Hj. apply (HM i j); auto.
    + apply (int_dot (fun x => x ^ 2 * B i x) _ _ _ _ (make_mass_sphere (tabs c) aa bb)). intros j Hj. apply (HM i j); auto.
  - eapply dd_eq; [apply moment_dt; auto|]. rewrite EU. fold n.
    replace (dotv n G (Vt a s) i) with (dotv n (fun i j => Gform i j aa bb (D s) (D (S s)) / PI) (Vt a s) i).
    2:{ apply dotv_ext; auto. intros j Hj. destruct (over_pi_inv n _ G EG i j Hi Hj) as (g & Eg & ->).
        pose proof ab. apply G_entry in Eg; [now rewrite Eg|lra]. }
    replace (dotv n MPR (Vt a s) i) with (sumn n (fun j => M'form i j aa bb (D s) (D (S s)) / PI * V a s j t)).
    2:{ unfold dotv. apply sumn_ext. intros j Hj. destruct (over_pi_inv n _ MPR EM i j Hi Hj) as (g & Eg & ->).
        apply M_entry in Eg. now rewrite Eg. }
    ring.
Qed.

Let q w := sqrt PI * sqrt (E (S s) w - E s w).
Lemma content_moment (U : nat -> R -> R) w : E s w < E (S s) w -> sph_content fc E U s w = q w * moment fc E U s 0 w.
Proof.
  intros H. apply int_uniq.
  apply (int_ext (fun x => q w * (x ^ 2 * basis Sphere 0 x (E s w) (E (S s) w) * field Sphere (fM fc) (fun j => U j w) (E s w) (E (S s) w) x))).
  { intro x. transitivity (x ^ 2 * (q w * basis Sphere 0 x (E s w) (E (S s) w)) * field Sphere (fM fc) (fun j => U j w) (E s w) (E (S s) w) x); [ring|].
    unfold q. pose proof (basis0_edge Sphere x _ _ H) as Hb. cbn [kap] in Hb. rewrite Hb. ring. }
  apply int_scal. rewrite moment_val by auto.
  apply (int_dot (fun x => x ^ 2 * basis Sphere 0 x (E s w) (E (S s) w)) (fM fc) (fun j => U j w) _ _ (fun i j => Mform i j (E s w) (E (S s) w) / PI)).
  intros j _. now apply mass_is.
Qed.
Lemma G_row0 j a1 b1 a' b' : a1 < b1 -> Gform 0 j a1 b1 a' b' = - (1 / 2) * ((b' - a') / (b1 - a1)) * Mform 0 j a1 b1.
Proof. intros. unfold Gform, Mform, Bq, Cq. cbv zeta. rewrite !be0. field. lra. Qed.
Lemma L_row0 U : dotv n (make_L_sphere (tabs c) aa bb) U 0 = 0.
Proof. unfold dotv. apply sumn_zero. intros. unfold make_L_sphere. cbn [Nat.eqb]. ring. Qed.

Lemma sph_balance vl vr :
  face fc t (fun k => E k t) D (Vt a) (mus c a) refl s vl -> face fc t (fun k => E k t) D (Vt a) (mus c a) refl (S s) vr ->
  is_derive (sph_content fc E (V a s) s) t
    (aa ^ 2 * (mus c a - D s) * vl - bb ^ 2 * (mus c a - D (S s)) * vr
     - RInt (fun x => x * field Sphere (fM fc) (dterm c Vt s a) aa bb x) aa bb
     + sigma_s c * sumn (N_ang c) (fun l => wsa c l * sph_content fc E (V l s) s t)
     - sph_content fc E (V a s) s t
     + 1 / 2 * sigma_s c * (sqrt (PI * (bb - aa)) * Src c t aa bb 0%nat)).
Proof.
  intros F1 F2. assert (H0 : (0 < n)%nat) by (unfold n; lia). pose proof ab as Hab.
  assert (Hh : 0 < bb - aa) by lra.
  destruct (mass_update 0 H0) as (vl' & vr' & G & MPR & F1' & F2' & EG & EM & EU).
  rewrite <- (face_fun fc t _ D (Vt a) (mus c a) refl HN He s vl vl' F1 F1') in EU.
  rewrite <- (face_fun fc t _ D (Vt a) (mus c a) refl HN He (S s) vr vr' F2 F2') in EU.
  apply (dd_loc (fun w => q w * moment fc E (V a s) s 0 w)).
  { generalize loc_s. apply filter_imp. intros w Hw. now rewrite content_moment. }
  assert (Q : forall U : nat -> R -> R, sph_content fc E U s t = q t * dotv n (make_mass_sphere (tabs c) aa bb) (fun j => U j t) 0).
  { intros U. rewrite content_moment by exact Hab. f_equal. rewrite moment_val by exact Hab. unfold dotv.
    apply sumn_ext. intros j Hj. rewrite mass_entry by auto. reflexivity. }
  assert (RJ : RInt (fun x => x * field Sphere (fM fc) (dterm c Vt s a) aa bb x) aa bb = q t * dotv n (make_J_sphere (tabs c) aa bb) (dterm c Vt s a) 0).
  { apply int_uniq. apply (int_ext (fun x => q t * (x * basis Sphere 0 x aa bb * field Sphere (fM fc) (dterm c Vt s a) aa bb x))).
    { intro x. transitivity (x * (q t * basis Sphere 0 x aa bb) * field Sphere (fM fc) (dterm c Vt s a) aa bb x); [ring|].
      unfold q. pose proof (basis0_edge Sphere x aa bb Hab) as Hb. cbn [kap] in Hb. fold aa bb. rewrite Hb. ring. }
    apply int_scal. apply (int_dot (fun x => x * basis Sphere 0 x aa bb)). intros j Hj. apply (HJ 0%nat j); auto. }
  rewrite RJ, !Q. clear RJ.
  replace (sumn (N_ang c) (fun l => wsa c l * sph_content fc E (V l s) s t))
    with (q t * dotv n (make_mass_sphere (tabs c) aa bb) (make_P (N_ang c) (wsa c) (fun l j => Vt l s j)) 0).
  2:{ unfold make_P. rewrite (sumn_ext _ (fun l => wsa c l * sph_content fc E (V l s) s t) (fun l => q t * (sumn n (fun j => make_mass_sphere (tabs c) aa bb 0 j * (Vt l s j * wsa c l))))).
      - rewrite sumn_scal. f_equal. unfold dotv. rewrite sumn_swap. apply sumn_ext. intros j _. now rewrite sumn_scal.
      - intros l _. rewrite Q. unfold dotv. rewrite <- !sumn_scal. apply sumn_ext. intros. unfold Vt. ring. }
  replace (sqrt (PI * (bb - aa))) with (q t) by (unfold q; fold aa bb; symmetry; apply sqrt_mult; [left; apply PI_RGT_0|lra]).
  eapply dd_eq.
  { apply dd_mult; [unfold q; apply dd_scal; apply (dd_sqrt (fun w => E (S s) w - E s w)); [apply dd_minus; apply HD; lia|exact Hh]|apply moment_dt; auto]. }
  cbv beta. fold aa bb. rewrite EU, L_row0.
  replace (dotv n G (Vt a s) 0) with (- (1 / 2) * ((D (S s) - D s) / (bb - aa)) * dotv n (make_mass_sphere (tabs c) aa bb) (Vt a s) 0).
  2:{ unfold dotv. rewrite <- sumn_scal. apply sumn_ext. intros j Hj. destruct (over_pi_inv n _ G EG 0 j H0 Hj) as (g & Eg & ->).
      apply G_entry in Eg; [|lra]. rewrite Eg, G_row0, mass_entry by auto. field. split; (apply PI_neq0 || lra). }
  replace (dotv n MPR (Vt a s) 0) with (sumn n (fun j => M'form 0 j aa bb (D s) (D (S s)) / PI * V a s j t)).
  2:{ unfold dotv. apply sumn_ext. intros j Hj. destruct (over_pi_inv n _ MPR EM 0 j H0 Hj) as (g & Eg & ->).
      apply M_entry in Eg. now rewrite Eg. }
  replace (moment fc E (V a s) s 0 t) with (dotv n (make_mass_sphere (tabs c) aa bb) (Vt a s) 0).
  2:{ rewrite moment_val by exact Hab. unfold dotv. apply sumn_ext. intros j Hj. rewrite mass_entry by auto. reflexivity. }
  pose proof (basis0_edge Sphere aa aa bb Hab) as B1. pose proof (basis0_edge Sphere bb aa bb Hab) as B2. cbn [kap] in B1, B2.
  change (fun j => V a s j t) with (Vt a s).
  assert (S0 : 0 < sqrt (bb - aa)) by (apply sqrt_lt_R0; auto). pose proof (sqrt_sqrt (bb - aa) (Rlt_le _ _ Hh)) as SS.
  unfold q. fold aa bb. unfold B.
  revert B1 B2. generalize (basis Sphere 0 aa aa bb) (basis Sphere 0 bb aa bb). intros B1 B2 E1 E2.
  generalize (dotv n (make_mass_sphere (tabs c) aa bb) (Vt a s) 0) (dotv n (make_J_sphere (tabs c) aa bb) (dterm c Vt s a) 0)
    (dotv n (make_mass_sphere (tabs c) aa bb) (make_P (N_ang c) (wsa c) (fun l j => Vt l s j)) 0)
    (sumn n (fun j => M'form 0 j aa bb (D s) (D (S s)) / PI * V a s j t)) (Src c t aa bb 0%nat). intros X1 X2 X3 X4 X5.
  revert SS S0 E1 E2. generalize (sqrt (bb - aa)) (sqrt PI). intros r p SS S0 E1 E2.
  rewrite <- SS.
  transitivity (bb ^ 0 * (aa ^ 2 * (mus c a - D s) * vl * (p * r * B1) - bb ^ 2 * (mus c a - D (S s)) * vr * (p * r * B2)
     - p * r * X2 + sigma_s c * (p * r * X3) - p * r * X1 + 1 / 2 * sigma_s c * (p * r * X5))); [field; lra|].
  rewrite E1, E2. simpl. ring.
Qed.
End W.
