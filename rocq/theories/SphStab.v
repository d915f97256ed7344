(** The energy identity of the whole sphere. *)
From Coq Require Import ZArith QArith Qreals.
From Coquelicot Require Import Coquelicot.
From Verif Require Import Py PyLemmas Calc Legendre Cheb DGModel DGSpec DGProofs DGInt DGBalance DGFinal GmatModel MatModel RhsModel RhsProofs
  SpherePoly SphereProofs SphereBal SphereWeak SphereThms PosDef SphMass SphUnif SphEnergy SphSpec.
Open Scope R_scope.

(* ------------------------------------------------------------------ the angular term *)
Lemma aterm_add N x p q a : aterm N x (fun l => p l + q l) a = aterm N x p a + aterm N x q a.
Proof. unfold aterm, finite_diff_uneven. cbv zeta. destruct (negb _ && negb _); [|destruct (a =? 0)%nat]; unfold Rdiv; ring. Qed.
Lemma aterm_zero N x a : aterm N x (fun _ => 0) a = 0.
Proof. unfold aterm, finite_diff_uneven. cbv zeta. destruct (negb _ && negb _); [|destruct (a =? 0)%nat]; unfold Rdiv; ring. Qed.
Lemma aterm_field N x n (V : nat -> nat -> R) (B : nat -> R) a :
  sumn n (fun j => aterm N x (fun l => V l j) a * B j) = aterm N x (fun l => sumn n (fun j => V l j * B j)) a.
Proof.
  induction n as [|n IH]; cbn [sumn]; [now rewrite aterm_zero|].
  rewrite (aterm_add N x (fun l => sumn n (fun j => V l j * B j)) (fun l => V l n * B n)), IH. f_equal.
  transitivity (B n * aterm N x (fun l => V l n) a); [ring|]. rewrite <- aterm_scal. f_equal.
  apply FunctionalExtensionality.functional_extensionality. intros; ring.
Qed.
(** the angular term tested with the field itself *)
Lemma aterm_self N x psi : (2 <= N)%nat -> directions N x ->
  sumn N (fun a => awidth N x a * (psi a * aterm N x psi a)) = - (1 / 2) * sumn N (fun a => awidth N x a * ((aedge N x a + aedge N x (S a)) * psi a ^ 2)).
Proof.
  intros HN H. pose (T := fun a => if (a =? 0)%nat then 0 else if (a =? N)%nat then 0 else 1 / 2 * (1 - aedge N x a ^ 2) * psi (a - 1)%nat * psi a).
  assert (Z : sumn N (fun a => awidth N x a * (psi a * aterm N x psi a) - - (1 / 2) * (awidth N x a * ((aedge N x a + aedge N x (S a)) * psi a ^ 2))) = 0).
  { rewrite (sumn_ext N _ (fun a => T (S a) - T a)).
    - rewrite sumn_telescope. unfold T. rewrite Nat.eqb_refl. destruct (N =? 0)%nat; simpl; ring.
    - intros a Ha. rewrite aterm_flux by auto. pose proof (awidth_pos N x a HN H Ha) as P.
      transitivity (psi a * (aflux N x psi (S a) - aflux N x psi a) + 1 / 2 * (awidth N x a * (aedge N x a + aedge N x (S a)) * psi a ^ 2)); [field; lra|].
      unfold awidth, aflux, T. change (S a =? 0)%nat with false. cbv iota. replace (S a - 1)%nat with a by lia.
      destruct (Nat.eqb_spec (S a) N) as [EN|NN]; (destruct (Nat.eqb_spec a 0) as [->|N0]; [|destruct (Nat.eqb_spec a N); [lia|]]); try lia.
      2: { replace (aedge N x 0) with (-1) by reflexivity. field. }
      + replace (aedge N x (S a)) with 1; [field|]. unfold aedge. rewrite (proj2 (Nat.eqb_eq (S a) N) EN). reflexivity.
      + field. }
  rewrite sumn_minus, sumn_scal in Z. lra.
Qed.

(* ------------------------------------------------------------------ faces *)
Lemma sumn_faces m (X Y : nat -> R) : sumn (S m) (fun s => X s - Y s) = X 0%nat - Y m + sumn m (fun s => X (S s) - Y s).
Proof. induction m as [|m IH]; [simpl; ring|]. remember (S m) as k. cbn [sumn]. rewrite IH. subst k. cbn [sumn]. ring. Qed.

Lemma face_refl fc t e D u m r r' f v : (0 < f)%nat -> face fc t e D u m r f v -> face fc t e D u m r' f v.
Proof. intros Hf F. destruct F; [lia|now apply face_from_left|now apply face_from_right|now apply face_in_r]. Qed.

Section T.
Variables (c : rhs_cfg) (t : R) (E : nat -> R -> R) (V : nat -> nat -> nat -> R -> R) (st : nat -> nat -> flux_state).
Let fc := rflux c.
Let n := (fM fc + 1)%nat.
Let Vt := fun l k j => V l k j t.
Let D := r_Dedges c t.
Let N := fN fc.
Let K := N_ang c.
Let P := psi_at c E V.
Hypothesis Hg : fgeom fc = Sphere.
Hypothesis HN : (2 <= N)%nat.
Hypothesis HK : (2 <= K)%nat.
Hypothesis Hdir : directions K (mus c).
Hypothesis HMesh : sph_mesh_at c E t.
Hypothesis HTab : sph_tables_at c E t.
Hypothesis HSol : sph_solves_at c st V t.
Hypothesis HR : ~ right_on fc t.

Lemma face_sum a : (a < K)%nat -> exists v, (forall f, (f <= N)%nat -> face fc t (fun k => E k t) D (Vt a) (mus c a) (Vt (refl_index c 0 a) 0%nat) f (v f)) /\
  sumn N (fun s => E s t ^ 2 * (mus c a - D s) * (2 * v s * P a s t (E s t) - P a s t (E s t) ^ 2)
      - E (S s) t ^ 2 * (mus c a - D (S s)) * (2 * v (S s) * P a s t (E (S s) t) - P a s t (E (S s) t) ^ 2))
  = - sumn N (fun s => E (S s) t ^ 2 * Rabs (mus c a - D (S s)) * (P a s t (E (S s) t) - outside c E V a s t) ^ 2).
Proof.
  intros Ha. destruct HMesh as (HE & He & H0 & HD).
  destruct (face_exists fc t (fun k => E k t) D (Vt a) (mus c a) (Vt (refl_index c 0 a) 0%nat) HN He 0 (Nat.le_0_l _)) as (v0 & F0).
  pose (v := fun f => match f with O => v0 | S s => if Rle_lt_dec 0 (mus c a - D (S s)) then P a s t (E (S s) t) else outside c E V a s t end).
  assert (Fv : forall f, (f <= N)%nat -> face fc t (fun k => E k t) D (Vt a) (mus c a) (Vt (refl_index c 0 a) 0%nat) f (v f)).
  { intros [|s] Hs; [exact F0|]. cbn [v]. destruct (Rle_lt_dec 0 (mus c a - D (S s))) as [Hp|Hp].
    - unfold P, psi_at. fold fc. rewrite <- Hg. now apply (face_from_left fc t (fun k => E k t) D (Vt a) (mus c a) (Vt (refl_index c 0 a) 0%nat) s).
    - unfold outside. fold fc. fold N. destruct (Nat.eqb_spec (S s) N) as [EN|NN].
      + rewrite EN in *. apply face_in_r; [exact Hp|]. now apply ir_vac.
      + unfold psi_at. fold fc. rewrite <- Hg. apply (face_from_right fc t (fun k => E k t) D (Vt a) (mus c a) (Vt (refl_index c 0 a) 0%nat) (S s)); [auto|]. fold N. lia. }
  exists v. split; [exact Fv|].
  assert (FL : forall s, (s < N)%nat -> 0 <= mus c a - D (S s) -> v (S s) = P a s t (E (S s) t)).
  { intros s Hs Hp. cbn [v]. destruct (Rle_lt_dec 0 (mus c a - D (S s))); [auto|lra]. }
  assert (FR : forall s, (s < N)%nat -> mus c a - D (S s) < 0 -> v (S s) = outside c E V a s t).
  { intros s Hs Hp. cbn [v]. destruct (Rle_lt_dec 0 (mus c a - D (S s))); [lra|auto]. }
  clearbody v.
  assert (EN : exists m, N = S m) by (exists (N - 1)%nat; lia). destruct EN as (m & EN).
  rewrite EN at 1. rewrite (sumn_faces m (fun s => E s t ^ 2 * (mus c a - D s) * (2 * v s * P a s t (E s t) - P a s t (E s t) ^ 2))
     (fun s => E (S s) t ^ 2 * (mus c a - D (S s)) * (2 * v (S s) * P a s t (E (S s) t) - P a s t (E (S s) t) ^ 2))).
  rewrite H0. rewrite EN at 1. cbn [sumn].
  assert (L1 : E (S m) t ^ 2 * (mus c a - D (S m)) * (2 * v (S m) * P a m t (E (S m) t) - P a m t (E (S m) t) ^ 2)
     = E (S m) t ^ 2 * Rabs (mus c a - D (S m)) * (P a m t (E (S m) t) - outside c E V a m t) ^ 2).
  { assert (O : outside c E V a m t = 0) by (unfold outside; fold fc; fold N; rewrite EN, Nat.eqb_refl; reflexivity). rewrite O.
    destruct (Rle_lt_dec 0 (mus c a - D (S m))) as [L|L].
    - rewrite (FL m) by (auto; lia). rewrite Rabs_pos_eq by auto. ring.
    - rewrite (FR m) by (auto; lia). rewrite O, Rabs_left by auto. ring. }
  rewrite L1.
  rewrite (sumn_ext m _ (fun s => (-1) * (E (S s) t ^ 2 * Rabs (mus c a - D (S s)) * (P a s t (E (S s) t) - outside c E V a s t) ^ 2))).
  - rewrite sumn_scal. ring.
  - intros s Hs. assert (O : outside c E V a s t = P a (S s) t (E (S s) t)).
    { unfold outside. fold fc. fold N. destruct (Nat.eqb_spec (S s) N); [lia|reflexivity]. }
    destruct (Rle_lt_dec 0 (mus c a - D (S s))) as [L|L].
    + rewrite (FL s) by (auto; lia). rewrite Rabs_pos_eq, O by auto. ring.
    + rewrite (FR s) by (auto; lia). rewrite O, Rabs_left by auto. ring.
Qed.
Lemma psi_cont a s x : (s < N)%nat -> continuous (P a s t) x.
Proof. intros Hs. unfold P, psi_at. apply sph_field_cont. exact (proj1 (proj2 HMesh) s Hs). Qed.

Definition eloss (a s : nat) : R :=
  - E (S s) t ^ 2 * Rabs (mus c a - r_Dedges c t (S s)) * (psi_at c E V a s t (E (S s) t) - outside c E V a s t) ^ 2
  + 2 * ((aedge (N_ang c) (mus c) a + aedge (N_ang c) (mus c) (S a)) / 2 - mus c a) * RInt (fun x => x * psi_at c E V a s t x ^ 2) (E s t) (E (S s) t)
  + 2 * sigma_s c * RInt (fun x => x ^ 2 * psi_at c E V a s t x * sumn (N_ang c) (fun l => wsa c l * psi_at c E V l s t x)) (E s t) (E (S s) t)
  - 2 * RInt (fun x => x ^ 2 * psi_at c E V a s t x ^ 2) (E s t) (E (S s) t)
  + sigma_s c * sumn (fM (rflux c) + 1) (fun i => V a s i t * Src c t (E s t) (E (S s) t) i).

Lemma sphere_energy : is_derive (sph_energy c E V) t (sumn K (fun a => awidth K (mus c) a * sumn N (fun s => eloss a s))).
Proof.
  destruct HMesh as (HE & He & H0 & HD).
  pose (tau := fun a s => - 2 * mus c a * RInt (fun x => x * P a s t x ^ 2) (E s t) (E (S s) t) - 2 * RInt (fun x => x * (P a s t x * aterm K (mus c) (fun l => P l s t x) a)) (E s t) (E (S s) t)).
  pose (rest := fun a s => 2 * sigma_s c * RInt (fun x => x ^ 2 * P a s t x * sumn K (fun l => wsa c l * P l s t x)) (E s t) (E (S s) t)
     - 2 * RInt (fun x => x ^ 2 * P a s t x ^ 2) (E s t) (E (S s) t) + sigma_s c * sumn n (fun i => V a s i t * Src c t (E s t) (E (S s) t) i)).
  pose (jmp := fun a s => E (S s) t ^ 2 * Rabs (mus c a - D (S s)) * (P a s t (E (S s) t) - outside c E V a s t) ^ 2).
  assert (DA : forall a, (a < K)%nat -> is_derive (fun w => sumn N (fun s => sq_content (fM fc) E (V a s) s w)) t (sumn N (fun s => - jmp a s + tau a s + rest a s))).
  { intros a Ha. destruct (face_sum a Ha) as (v & Fv & ES).
    eapply dd_eq.
    - apply (dd_sumn N (fun s w => sq_content (fM fc) E (V a s) s w)). intros s Hs. destruct (HSol s Hs) as (W & HW & HV).
      destruct (HTab s Hs) as (T1 & T2 & T3 & T4).
      assert (HVa : forall j, (j < fM (rflux c) + 1)%nat -> is_derive (V a s j) t (W a j)) by (intros; apply HV; [auto|lia]).
      apply (cell_energy c t E V (st s) Hg HN HE He HD s W Hs HW T1 T2 T3 T4 a HVa (v s) (v (S s))).
      + destruct (Nat.eq_dec s 0) as [Z|Z].
        * rewrite Z. apply Fv. lia.
        * eapply face_refl; [lia|]. apply Fv. unfold N in *. lia.
      + eapply face_refl; [lia|]. apply Fv. exact Hs.
    - cbv beta. unfold jmp.
      transitivity (- sumn N (fun s => E (S s) t ^ 2 * Rabs (mus c a - D (S s)) * (P a s t (E (S s) t) - outside c E V a s t) ^ 2) + sumn N (fun s => tau a s + rest a s)).
      + rewrite <- ES, <- sumn_plus. apply sumn_ext. intros s Hs. unfold tau, rest.
        replace (RInt (fun x => x * (P a s t x * aterm K (mus c) (fun l => P l s t x) a)) (E s t) (E (S s) t))
          with (RInt (fun x => x * field Sphere (fM fc) (Vt a s) (E s t) (E (S s) t) x * field Sphere (fM fc) (dterm c Vt s a) (E s t) (E (S s) t) x) (E s t) (E (S s) t)).
        2: { apply RInt_ext. intros x _. rewrite Rmult_assoc. f_equal. f_equal. unfold P, psi_at, field. rewrite <- aterm_field. reflexivity. }
        fold fc n D Vt. unfold P, psi_at. fold fc. unfold K. cbv delta [Vt]. cbv beta. ring.
      + transitivity (sumn N (fun s => (-1) * (E (S s) t ^ 2 * Rabs (mus c a - D (S s)) * (P a s t (E (S s) t) - outside c E V a s t) ^ 2) + (tau a s + rest a s))).
        * rewrite !sumn_plus, sumn_scal. ring.
        * apply sumn_ext. intros. ring. }
  assert (TS : forall s, (s < N)%nat -> sumn K (fun a => awidth K (mus c) a * tau a s)
     = sumn K (fun a => awidth K (mus c) a * (2 * ((aedge K (mus c) a + aedge K (mus c) (S a)) / 2 - mus c a) * RInt (fun x => x * P a s t x ^ 2) (E s t) (E (S s) t)))).
  { intros s Hs. assert (CP : forall a x, continuous (P a s t) x) by (intros; now apply psi_cont).
    assert (CT : forall a x, continuous (fun x => aterm K (mus c) (fun l => P l s t x) a) x).
    { intros a x. unfold aterm, finite_diff_uneven. cbv zeta. destruct (negb _ && negb _); [|destruct (a =? 0)%nat]; apply cdivc.
      - apply cminus; (apply cmult; [apply cconst|]); (apply cmult; [apply cconst|]); apply cplus; apply CP.
      - apply cmult; [apply cconst|]. apply cmult; [apply cconst|]. apply cplus; apply CP.
      - apply cmult; [apply cconst|]. apply cmult; [apply cconst|]. apply cplus; apply CP. }
    assert (C1 : forall a x, continuous (fun x => x * (P a s t x * aterm K (mus c) (fun l => P l s t x) a)) x) by (intros; apply cmult; [apply cid|apply cmult; auto]).
    assert (C2 : forall a x, continuous (fun x => x * P a s t x ^ 2) x) by (intros; apply cmult; [apply cid|apply cpow; auto]).
    assert (Q : sumn K (fun a => awidth K (mus c) a * RInt (fun x => x * (P a s t x * aterm K (mus c) (fun l => P l s t x) a)) (E s t) (E (S s) t))
       = - (1 / 2) * sumn K (fun a => awidth K (mus c) a * ((aedge K (mus c) a + aedge K (mus c) (S a)) * RInt (fun x => x * P a s t x ^ 2) (E s t) (E (S s) t)))).
    { eapply int_uniq2.
      - apply int_sumn. intros a _. apply int_scal. apply int_val. apply C1.
      - apply (int_ext (fun x => - (1 / 2) * sumn K (fun a => awidth K (mus c) a * ((aedge K (mus c) a + aedge K (mus c) (S a)) * (x * P a s t x ^ 2))))).
        + intros x. transitivity (x * (- (1 / 2) * sumn K (fun a => awidth K (mus c) a * ((aedge K (mus c) a + aedge K (mus c) (S a)) * P a s t x ^ 2)))).
          * rewrite <- !sumn_scal. apply sumn_ext. intros; ring.
          * rewrite <- aterm_self, <- sumn_scal by auto. apply sumn_ext. intros; ring.
        + apply int_scal, int_sumn. intros a _. apply int_scal, int_scal, int_val. apply C2. }
    transitivity (sumn K (fun a => -2 * (awidth K (mus c) a * (mus c a * RInt (fun x => x * P a s t x ^ 2) (E s t) (E (S s) t))) + -2 * (awidth K (mus c) a * RInt (fun x => x * (P a s t x * aterm K (mus c) (fun l => P l s t x) a)) (E s t) (E (S s) t)))).
    { apply sumn_ext. intros. unfold tau. ring. }
    rewrite sumn_plus, !sumn_scal, Q, <- !sumn_scal, <- sumn_plus. apply sumn_ext. intros. field. }
  eapply dd_eq.
  - unfold sph_energy. apply (dd_sumn K (fun a w => awidth K (mus c) a * sumn N (fun s => sq_content (fM fc) E (V a s) s w))).
    intros a Ha. apply dd_scal. now apply DA.
  - cbv beta.
    transitivity (sumn N (fun s => sumn K (fun a => awidth K (mus c) a * (- jmp a s + rest a s)) + sumn K (fun a => awidth K (mus c) a * tau a s))).
    { rewrite (sumn_ext K _ (fun a => sumn N (fun s => awidth K (mus c) a * (- jmp a s + tau a s + rest a s)))) by (intros; now rewrite <- sumn_scal).
      rewrite sumn_swap. apply sumn_ext. intros s _. rewrite <- sumn_plus. apply sumn_ext. intros; ring. }
    rewrite (sumn_ext K (fun a => awidth K (mus c) a * sumn N (fun s => eloss a s)) (fun a => sumn N (fun s => awidth K (mus c) a * eloss a s))) by (intros; now rewrite <- sumn_scal).
    rewrite (sumn_swap K). apply sumn_ext. intros s Hs. rewrite TS by auto. rewrite <- sumn_plus. apply sumn_ext. intros a Ha.
    unfold eloss, jmp, rest, D, n, P, K, fc. ring.
Qed.
End T.
