(** C21, C22, C25, C73, C74: the spherical matrices and the spherical update. *)
From Coq Require Import ZArith QArith Qreals.
From Verif Require Import Py PyLemmas Legendre Cheb DGModel DGSpec DGProofs DGInt DGBalance DGFinal GmatModel MatModel RhsModel RhsProofs
  SpherePoly SphereProofs SphereBal SphereWeak.
Open Scope R_scope.

(* ---------------------------------------------------------------- C21 *)
Theorem C21_sphere_motion_table_exact : forall i j (a b : R -> R) t a' b', (i <= 10)%nat -> (j <= 10)%nat ->
  is_derive a t a' -> is_derive b t b' -> a t < b t ->
  exists g, GMatrix i j (a t) (b t) a' b' = Some g /\
  is_RInt (fun x => x ^ 2 * Derive (fun s => basis Sphere i x (a s) (b s)) t * basis Sphere j x (a t) (b t)) (a t) (b t) (g / PI).
Proof.
  intros i j a b t a' b' Hi Hj Ha Hb Hab. exists (Gform i j (a t) (b t) a' b'). split.
  - apply G_table; auto. lra.
  - now apply cmotion_is.
Qed.
Print Assumptions C21_sphere_motion_table_exact.
Theorem C21_outside_table : forall i j a b a' b', (10 < i)%nat \/ (10 < j)%nat -> GMatrix i j a b a' b' = None.
Proof. exact G_out. Qed.
Print Assumptions C21_outside_table.
(** the matrix exists exactly for M <= 10 *)
Theorem C21_matrix_exists_iff : forall M a b a' b', (exists A, make_G_sphere (M + 1) a b a' b' = Ok A) <-> (M <= 10)%nat.
Proof.
  intros M a b a' b'. split.
  - intros (A & H). destruct (le_lt_dec M 10) as [|Hm]; auto. exfalso.
    unfold make_G_sphere in H. rewrite (over_pi_err (M + 1) _ M 0) in H; [discriminate|lia|lia|]. apply G_out. auto.
  - intros Hm. eexists. apply over_pi_ok. intros i j Hi Hj.
    assert (Hi' : (i <= 10)%nat) by lia. assert (Hj' : (j <= 10)%nat) by lia. clear - Hi' Hj'.
    do 11 (destruct i as [|i]; [do 11 (destruct j as [|j]; [eexists; reflexivity|]); lia|]). lia.
Qed.
Print Assumptions C21_matrix_exists_iff.
(** the fractions stand for the decimal literals of the file up to float64 precision *)
Theorem C21_literals : forall m e q, In (m, e, q) literals -> (0 < q)%Z /\ (0 < e)%Z /\
  Rabs (IZR m / IZR (10 ^ e) - 1 / IZR q) <= 1 / IZR q / 2 ^ 52.
Proof.
  intros m e q H. unfold literals in H. cbn [In] in H.
  repeat (destruct H as [H|H]; [injection H as <- <- <-; split; [lia|split; [lia|]];
    match goal with |- Rabs (_ / IZR ?t - _) <= _ => let v := eval vm_compute in t in change t with v end;
    apply Rabs_le; split; lra|]). destruct H.
Qed.
Print Assumptions C21_literals.
Example C21_example : GMatrix 0 0 0 1 0 1 = Some (- (1 / 6) * ((0 ^ 2 + 0 * 1 + 1 ^ 2) * (0 - 1)) / (0 - 1)).
Proof. reflexivity. Qed.

(* ---------------------------------------------------------------- C22 *)
Theorem C22_sphere_mass_rate_exact : forall i j (a b : R -> R) t a' b', (i <= 10)%nat -> (j <= 10)%nat ->
  is_derive a t a' -> is_derive b t b' -> a t < b t ->
  exists g, MPRIME i j (a t) (b t) a' b' = Some g /\
  is_derive (fun s => RInt (fun x => x ^ 2 * basis Sphere i x (a s) (b s) * basis Sphere j x (a s) (b s)) (a s) (b s)) t (g / PI).
Proof.
  intros i j a b t a' b' Hi Hj Ha Hb Hab. exists (M'form i j (a t) (b t) a' b'). split.
  - now apply M_table.
  - now apply mass_rate.
Qed.
Print Assumptions C22_sphere_mass_rate_exact.
Theorem C22_outside_table : forall i j a b a' b', (10 < i)%nat \/ (10 < j)%nat -> MPRIME i j a b a' b' = None.
Proof. exact M_out. Qed.
Print Assumptions C22_outside_table.
(** d/dt of the mass matrix is G + G^T plus the motion of the faces *)
Theorem C22_mass_rate_consistent_with_motion : forall i j a b a' b' g1 g2 m, a < b ->
  GMatrix i j a b a' b' = Some g1 -> GMatrix j i a b a' b' = Some g2 -> MPRIME i j a b a' b' = Some m ->
  m / PI = g1 / PI + g2 / PI
    + (b ^ 2 * basis Sphere i b a b * basis Sphere j b a b * b' - a ^ 2 * basis Sphere i a a b * basis Sphere j a a b * a').
Proof.
  intros i j a b a' b' g1 g2 m Hab E1 E2 E3.
  assert (Hi : (i <= 10)%nat) by (destruct (le_lt_dec i 10); auto; rewrite G_out in E1 by auto; discriminate).
  assert (Hj : (j <= 10)%nat) by (destruct (le_lt_dec j 10); auto; rewrite G_out in E1 by auto; discriminate).
  apply G_entry in E1; [|lra]. apply G_entry in E2; [|lra]. apply M_entry in E3. subst.
  replace (basis Sphere i b a b * basis Sphere j b a b) with (basis Sphere i b a b * basis Sphere j b a b) by ring.
  assert (B : basis Sphere i b a b * basis Sphere j b a b = rn i * rn j / (PI * (b - a)) /\
              basis Sphere i a a b * basis Sphere j a a b = (-1) ^ (i + j) * (rn i * rn j / (PI * (b - a)))).
  { assert (Z1 : refz b a b = 1) by (unfold refz; field; lra). assert (Z2 : refz a a b = -1) by (unfold refz; field; lra).
    rewrite !basis_sph, Z1, Z2, !cheb_at_1, !cheb_at_m1, <- scc, pow_add by (apply ph_pos; auto). split; ring. }
  destruct B as [B1 B2].
  replace (b ^ 2 * basis Sphere i b a b * basis Sphere j b a b * b') with (b ^ 2 * b' * (basis Sphere i b a b * basis Sphere j b a b)) by ring.
  replace (a ^ 2 * basis Sphere i a a b * basis Sphere j a a b * a') with (a ^ 2 * a' * (basis Sphere i a a b * basis Sphere j a a b)) by ring.
  rewrite B1, B2. clear B1 B2.
  (* integrate d/dz [ (m + k z)^2 (u + v z) T_i T_j ] *)
  pose (mm := (a + b) / 2). pose (kk := (b - a) / 2). pose (u := (a' + b') / 2). pose (v := (b' - a') / 2).
  assert (FT : (mm + kk) ^ 2 * (u + v) - (mm - kk) ^ 2 * (u - v) * (-1) ^ (i + j)
     = 2 * kk * (u * (mm * Q2R (al 0 i j) + kk * Q2R (al 1 i j)) + v * (mm * Q2R (al 1 i j) + kk * Q2R (al 2 i j)))
       + v * Aq mm kk i j + u * (Bq mm kk i j + Bq mm kk j i) + v * (Cq mm kk i j + Cq mm kk j i)).
  { assert (I : is_RInt (fun z => 2 * kk * (u * (mm * (z ^ 0 * (cheb i z * cheb j z)) + kk * (z ^ 1 * (cheb i z * cheb j z))) + v * (mm * (z ^ 1 * (cheb i z * cheb j z)) + kk * (z ^ 2 * (cheb i z * cheb j z))))
        + v * ((mm + kk * z) ^ 2 * (cheb i z * cheb j z))
        + u * ((mm + kk * z) ^ 2 * (dcheb i z * cheb j z) + (mm + kk * z) ^ 2 * (dcheb j z * cheb i z))
        + v * ((mm + kk * z) ^ 2 * (z * dcheb i z * cheb j z) + (mm + kk * z) ^ 2 * (z * dcheb j z * cheb i z))) (-1) 1
      ((mm + kk * 1) ^ 2 * (u + v * 1) * (cheb i 1 * cheb j 1) - (mm + kk * -1) ^ 2 * (u + v * -1) * (cheb i (-1) * cheb j (-1)))).
    { assert (C : forall k z, continuous (cheb k) z) by (intros; apply (cont_of_derive _ (dcheb k)); intro; apply cheb_derive).
      assert (C' : forall k z, continuous (dcheb k) z) by (intros; apply pev_cont).
      apply (int_ftc (fun z => (mm + kk * z) ^ 2 * (u + v * z) * (cheb i z * cheb j z))).
      - intro z. eapply dd_eq.
        + apply dd_mult; [apply dd_mult|apply dd_mult; apply cheb_derive].
          * apply (dd_ext (fun z => (mm + kk * z) * (mm + kk * z))); [intro; ring|]. apply dd_mult; (apply dd_plus; [apply dd_const|apply dd_scal, dd_id]).
          * apply dd_plus; [apply dd_const|apply dd_scal, dd_id].
        + cbv beta. ring.
      - intro z. auto 15 with cont. }
    rewrite !cheb_at_1, !cheb_at_m1 in I.
    assert (I2 : is_RInt (fun z => 2 * kk * (u * (mm * (z ^ 0 * (cheb i z * cheb j z)) + kk * (z ^ 1 * (cheb i z * cheb j z))) + v * (mm * (z ^ 1 * (cheb i z * cheb j z)) + kk * (z ^ 2 * (cheb i z * cheb j z))))
        + v * ((mm + kk * z) ^ 2 * (cheb i z * cheb j z))
        + u * ((mm + kk * z) ^ 2 * (dcheb i z * cheb j z) + (mm + kk * z) ^ 2 * (dcheb j z * cheb i z))
        + v * ((mm + kk * z) ^ 2 * (z * dcheb i z * cheb j z) + (mm + kk * z) ^ 2 * (z * dcheb j z * cheb i z))) (-1) 1
      (2 * kk * (u * (mm * Q2R (al 0 i j) + kk * Q2R (al 1 i j)) + v * (mm * Q2R (al 1 i j) + kk * Q2R (al 2 i j)))
       + v * Aq mm kk i j + u * (Bq mm kk i j + Bq mm kk j i) + v * (Cq mm kk i j + Cq mm kk j i))).
    { apply int_plus; [apply int_plus; [apply int_plus|]|].
      - apply int_scal, int_plus; apply int_scal, int_plus; apply int_scal, al_ok.
      - apply int_scal, Aq_ok.
      - apply int_scal, int_plus; apply Bq_ok.
      - apply int_scal, int_plus; apply Cq_ok. }
    pose proof (int_uniq2 _ _ _ _ _ I I2) as K. rewrite <- K, pow_add. ring. }
  assert (AS : Aq mm kk j i = Aq mm kk i j).
  { eapply int_uniq2; [apply Aq_ok|]. eapply int_ext; [|apply Aq_ok]. intro; cbv beta. ring. }
  unfold Gform, M'form. cbv zeta. fold mm kk. rewrite AS.
  pose proof PI_neq0. 
  replace (b ^ 2 * b' * (rn i * rn j / (PI * (b - a))) - a ^ 2 * a' * ((-1) ^ (i + j) * (rn i * rn j / (PI * (b - a)))))
    with (((mm + kk) ^ 2 * (u + v) - (mm - kk) ^ 2 * (u - v) * (-1) ^ (i + j)) * (rn i * rn j / (PI * (b - a))))
    by (unfold mm, kk, u, v; field; split; (auto || lra)).
  rewrite FT. unfold mm, kk, u, v. generalize (Aq ((a + b) / 2) ((b - a) / 2) i j) (Bq ((a + b) / 2) ((b - a) / 2) i j) (Bq ((a + b) / 2) ((b - a) / 2) j i)
    (Cq ((a + b) / 2) ((b - a) / 2) i j) (Cq ((a + b) / 2) ((b - a) / 2) j i). intros. field. split; (auto || lra).
Qed.
Print Assumptions C22_mass_rate_consistent_with_motion.
Example C22_example : MPRIME 0 0 1 2 1 3 = Some ((1 * (2 * 1 + 3) + 2 * (1 + 2 * 3)) / 3).
Proof. reflexivity. Qed.

(* ---------------------------------------------------------------- C25, C73 *)
(** [E k w] is the position of edge k at time w; [V a s j w] the coefficient; the update hypothesis is that the
    coefficients move as the right-hand side says; the tables hold the integrals they are named after and numpy
    inverts the mass matrix. *)
Theorem C25_sphere_cell_balance : forall (c : rhs_cfg) t (E : nat -> R -> R) (V : nat -> nat -> nat -> R -> R) st,
  fgeom (rflux c) = Sphere -> (2 <= fN (rflux c))%nat -> (forall k, r_edges c t k = E k t) ->
  increasing (fN (rflux c)) (fun k => E k t) ->
  (forall k, (k <= fN (rflux c))%nat -> is_derive (E k) t (r_Dedges c t k)) ->
  forall s W, (s < fN (rflux c))%nat -> rhs_space c st t (fun l k j => V l k j t) s = Ok W ->
  let n := (fM (rflux c) + 1)%nat in let aa := E s t in let bb := E (S s) t in
  mass_exact (tabs c) n aa bb -> J_exact (tabs c) n aa bb ->
  inverts n (make_mass_sphere (tabs c) aa bb) (inv c (make_mass_sphere (tabs c) aa bb)) ->
  forall a, (forall j, (j < n)%nat -> is_derive (V a s j) t (W a j)) ->
  forall vl vr,
  face (rflux c) t (fun k => E k t) (r_Dedges c t) (fun k j => V a k j t) (mus c a) (fun j => V (refl_index c s a) 0%nat j t) s vl ->
  face (rflux c) t (fun k => E k t) (r_Dedges c t) (fun k j => V a k j t) (mus c a) (fun j => V (refl_index c s a) 0%nat j t) (S s) vr ->
  is_derive (sph_content (rflux c) E (V a s) s) t
    (aa ^ 2 * (mus c a - r_Dedges c t s) * vl - bb ^ 2 * (mus c a - r_Dedges c t (S s)) * vr
     - RInt (fun x => x * field Sphere (fM (rflux c)) (fun j => aterm (N_ang c) (mus c) (fun l => V l s j t) a) aa bb x) aa bb
     + sigma_s c * sumn (N_ang c) (fun l => wsa c l * sph_content (rflux c) E (V l s) s t)
     - sph_content (rflux c) E (V a s) s t
     + 1 / 2 * sigma_s c * (sqrt (PI * (bb - aa)) * Src c t aa bb 0%nat)).
Proof. intros. eapply sph_balance; eauto. Qed.
Print Assumptions C25_sphere_cell_balance.

Theorem C73_sphere_update_is_the_weak_form : forall (c : rhs_cfg) t (E : nat -> R -> R) (V : nat -> nat -> nat -> R -> R) st,
  fgeom (rflux c) = Sphere -> (2 <= fN (rflux c))%nat -> (forall k, r_edges c t k = E k t) ->
  increasing (fN (rflux c)) (fun k => E k t) ->
  (forall k, (k <= fN (rflux c))%nat -> is_derive (E k) t (r_Dedges c t k)) ->
  forall s W, (s < fN (rflux c))%nat -> rhs_space c st t (fun l k j => V l k j t) s = Ok W ->
  let n := (fM (rflux c) + 1)%nat in let aa := E s t in let bb := E (S s) t in
  mass_exact (tabs c) n aa bb -> J_exact (tabs c) n aa bb -> L_exact (tabs c) n aa bb ->
  inverts n (make_mass_sphere (tabs c) aa bb) (inv c (make_mass_sphere (tabs c) aa bb)) ->
  forall a, (forall j, (j < n)%nat -> is_derive (V a s j) t (W a j)) ->
  forall i, (i < n)%nat -> exists vl vr Iv,
  face (rflux c) t (fun k => E k t) (r_Dedges c t) (fun k j => V a k j t) (mus c a) (fun j => V (refl_index c s a) 0%nat j t) s vl /\
  face (rflux c) t (fun k => E k t) (r_Dedges c t) (fun k j => V a k j t) (mus c a) (fun j => V (refl_index c s a) 0%nat j t) (S s) vr /\
  is_RInt (fun x =>
     x ^ 2 * (Derive (fun w => basis Sphere i x (E s w) (E (S s) w)) t + mus c a * Derive (fun y => basis Sphere i y aa bb) x)
         * field Sphere (fM (rflux c)) (fun j => V a s j t) aa bb x
     - x * basis Sphere i x aa bb * field Sphere (fM (rflux c)) (fun j => aterm (N_ang c) (mus c) (fun l => V l s j t) a) aa bb x
     + x ^ 2 * basis Sphere i x aa bb
         * (sigma_s c * sumn (N_ang c) (fun l => wsa c l * field Sphere (fM (rflux c)) (fun j => V l s j t) aa bb x)
            - field Sphere (fM (rflux c)) (fun j => V a s j t) aa bb x)) aa bb Iv /\
  is_derive (fun w => RInt (fun x => x ^ 2 * basis Sphere i x (E s w) (E (S s) w) *
       field Sphere (fM (rflux c)) (fun j => V a s j w) (E s w) (E (S s) w) x) (E s w) (E (S s) w)) t
    (Iv - (basis Sphere i bb aa bb * (bb ^ 2 * (mus c a - r_Dedges c t (S s)) * vr)
           - basis Sphere i aa aa bb * (aa ^ 2 * (mus c a - r_Dedges c t s) * vl))
     + 1 / 2 * sigma_s c * Src c t aa bb i).
Proof. intros. eapply sph_weak; eauto. Qed.
Print Assumptions C73_sphere_update_is_the_weak_form.

(** the update of a cell exists exactly for M <= 10 once the direction checks pass *)
Theorem C25_update_defined_iff : forall c st t V s, fgeom (rflux c) = Sphere ->
  forallb (refl_ok c) (seq 0 (N_ang c)) = true ->
  ((exists W, rhs_space c st t V s = Ok W) <-> (fM (rflux c) <= 10)%nat).
Proof.
  intros c st t V s Hg Hok. unfold rhs_space. rewrite Hg, Hok. cbn [negb]. rewrite andb_false_r. split.
  - intros (W & H). destruct (le_lt_dec (fM (rflux c)) 10) as [|Hm]; auto. exfalso.
    unfold make_G_sphere in H. rewrite (over_pi_err _ _ (fM (rflux c)) 0) in H; [discriminate|lia|lia|]. apply G_out. auto.
  - intros Hm. 
    destruct (proj2 (C21_matrix_exists_iff (fM (rflux c)) (r_edges c t s) (r_edges c t (s + 1)%nat) (r_Dedges c t s) (r_Dedges c t (s + 1)%nat)) Hm) as (A & ->).
    cbn [bind]. unfold make_MPRIME. rewrite over_pi_ok.
    + cbn [bind]. eexists. reflexivity.
    + intros i j Hi Hj. assert (Hi' : (i <= 10)%nat) by lia. assert (Hj' : (j <= 10)%nat) by lia. clear - Hi' Hj'.
      do 11 (destruct i as [|i]; [do 11 (destruct j as [|j]; [eexists; reflexivity|]); lia|]). lia.
Qed.
Print Assumptions C25_update_defined_iff.

(** a configuration meeting every hypothesis: two cells, two directions, M = 0 *)
Definition sE (k : nat) (w : R) : R := INR k * (1 + w).
Definition scfg : rhs_cfg := {|
  rflux := {| fgeom := Sphere; fM := 0; fN := 2; src4 := false; boundary_source := false; uncollided_on := false;
              ft0 := 1; bon_left := false; bon_right := false; strength := 0; fquad := [] |};
  N_ang := 2; mus := fun a => if (a =? 0)%nat then -1/2 else 1/2; wsa := fun _ => 1/2; sigma_s := 1; sigma_t := 1;
  r_edges := fun w k => sE k w; r_Dedges := fun _ k => INR k; tabs := ideal;
  inv := fun A i j => / A i j; Src := fun _ _ _ _ => 0 |}.
Lemma mass00 a b : a < b -> 0 <= a -> make_mass_sphere ideal a b 0 0 <> 0.
Proof.
  intros H Ha. assert (E : make_mass_sphere ideal a b 0 0 = Mform 0 0 a b / PI).
  { eapply int_uniq2; [apply (ideal_mass 1 a b H); lia|apply mass_is; auto]. }
  rewrite E. unfold Mform, Aq, rn. cbn [Nat.eqb].
  replace (Q2R (al 0 0 0)) with 2 by (unfold Q2R; vm_compute al; simpl; field).
  replace (Q2R (al 1 0 0)) with 0 by (unfold Q2R; vm_compute al; simpl; field).
  replace (Q2R (al 2 0 0)) with (2 / 3) by (unfold Q2R; vm_compute al; simpl; field).
  pose proof PI_RGT_0. apply Rgt_not_eq. apply Rdiv_lt_0_compat; [|lra]. nra.
Qed.
Example C25_example :
  fgeom (rflux scfg) = Sphere /\ (2 <= fN (rflux scfg))%nat /\ (forall k, r_edges scfg 0 k = sE k 0) /\
  increasing 2 (fun k => sE k 0) /\ (forall k, is_derive (sE k) 0 (r_Dedges scfg 0 k)) /\
  (forall st V s, exists W, rhs_space scfg st 0 V s = Ok W) /\
  (forall s, mass_exact (tabs scfg) 1 (sE s 0) (sE (S s) 0) /\ J_exact (tabs scfg) 1 (sE s 0) (sE (S s) 0) /\ L_exact (tabs scfg) 1 (sE s 0) (sE (S s) 0) /\
   inverts 1 (make_mass_sphere (tabs scfg) (sE s 0) (sE (S s) 0)) (inv scfg (make_mass_sphere (tabs scfg) (sE s 0) (sE (S s) 0)))).
Proof.
  assert (LT : forall s, sE s 0 < sE (S s) 0) by (intro s; unfold sE; rewrite S_INR; pose proof (pos_INR s); lra).
  refine (conj eq_refl (conj _ (conj _ (conj _ (conj _ (conj _ _)))))).
  - cbn; lia.
  - intros; reflexivity.
  - intros k _. apply LT.
  - intro k. unfold sE. cbn [r_Dedges scfg]. eapply dd_eq; [apply dd_scal, dd_plus; [apply dd_const|apply dd_id]|ring].
  - intros st V s. apply C25_update_defined_iff; [reflexivity| |cbn; lia].
    apply (refl_all_ok scfg); cbn [N_ang mus scfg].
    + intros a Ha. assert (a = 0)%nat as -> by lia. cbn [Nat.eqb]. lra.
    + intros a Ha. assert (a = 0 \/ a = 1)%nat as [-> | ->] by lia; cbn [Nat.eqb Nat.sub]; lra.
  - intro s. refine (conj _ (conj _ (conj _ _))); [now apply ideal_mass|now apply ideal_J|now apply ideal_L|].
    intros x i Hi. assert (i = 0)%nat as -> by lia. unfold dotv. cbn [sumn inv scfg tabs]. field.
    apply mass00; [apply LT|]. unfold sE. pose proof (pos_INR s). nra.
Qed.
Example C73_example : (0 < fM (rflux scfg) + 1)%nat. Proof. cbn; lia. Qed.

(* ---------------------------------------------------------------- C74 *)
Theorem C74_table_format_suffices : exists T, (forall i j, Mass_denom T i j = 1%Z /\ J_denom T i j = 1%Z /\ L_denom T i j = 1%Z) /\
  forall n a b, a < b -> mass_exact T n a b /\ J_exact T n a b /\ L_exact T n a b.
Proof.
  exists ideal. split; [intros; repeat split|]. intros n a b H. refine (conj _ (conj _ _)); [now apply ideal_mass|now apply ideal_J|now apply ideal_L].
Qed.
Print Assumptions C74_table_format_suffices.
Theorem C74_stiffness_first_row_vanishes : forall T j a b, a < b ->
  is_RInt (fun x => x ^ 2 * Derive (fun y => basis Sphere 0 y a b) x * basis Sphere j x a b) a b (make_L_sphere T a b 0 j).
Proof. intros T j a b H. apply (ideal_L (S j) a b H 0%nat j); lia. Qed.
Print Assumptions C74_stiffness_first_row_vanishes.
Example C74_example : make_mass_sphere ideal 0 1 0 0 <> 0. Proof. apply mass00; lra. Qed.
