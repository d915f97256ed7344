(** C132: the spherical mass matrix is positive definite, so its inverse exists, is unique and two-sided, and the
    spherical update does not depend on how it is computed. *)
From Coq Require Import ZArith QArith Qreals.
From Coquelicot Require Import Coquelicot.
From Verif Require Import Py PyLemmas Calc DGModel DGSpec DGProofs MatModel RhsModel RhsProofs SphereProofs SphereBal SphereWeak SphereThms PosDef SphMass.
Open Scope R_scope.

Theorem C132_form_is_the_integral : forall T M a b x, mass_exact T (M + 1) a b ->
  is_RInt (fun r => r ^ 2 * sumn (M + 1) (fun j => x j * basis Sphere j r a b) ^ 2) a b
    (sumn (M + 1) (fun i => x i * sumn (M + 1) (fun j => make_mass_sphere T a b i j * x j))).
Proof. intros. now apply mass_quad. Qed.
Print Assumptions C132_form_is_the_integral.

Theorem C132_positive_definite : forall T M a b x, 0 <= a < b -> mass_exact T (M + 1) a b -> (exists i, (i <= M)%nat /\ x i <> 0) ->
  0 < sumn (M + 1) (fun i => x i * sumn (M + 1) (fun j => make_mass_sphere T a b i j * x j)).
Proof. intros T M a b x [Ha H] HM (i & Hi & Hx). apply (mass_pdef T M a b Ha H HM x). exists i. split; [lia|auto]. Qed.
Print Assumptions C132_positive_definite.

Theorem C132_symmetric : forall T n a b i j, mass_exact T n a b -> (i < n)%nat -> (j < n)%nat -> make_mass_sphere T a b i j = make_mass_sphere T a b j i.
Proof.
  intros T n a b i j HM Hi Hj. eapply int_uniq2; [apply HM; auto|]. eapply int_ext; [|apply (HM j i); auto]. intros. cbv beta. ring.
Qed.
Print Assumptions C132_symmetric.

Theorem C132_inverse_exists : forall T M a b, 0 <= a < b -> mass_exact T (M + 1) a b -> exists B, inverts (M + 1) (make_mass_sphere T a b) B.
Proof.
  intros T M a b [Ha H] HM. exists (ginv (M + 1) (make_mass_sphere T a b)). intros x i Hi. apply ginv_right; auto. now apply mass_pdef.
Qed.
Print Assumptions C132_inverse_exists.

Lemma col n B k j : (k < n)%nat -> dotv n B (unit_vec k) j = B j k.
Proof.
  intros H. unfold dotv. rewrite (sumn_single n _ k); auto.
  - unfold unit_vec. rewrite Nat.eqb_refl. ring.
  - intros i _ N. unfold unit_vec. destruct (Nat.eqb_spec i k); [congruence|ring].
Qed.
Lemma inverse_is T M a b B : 0 <= a < b -> mass_exact T (M + 1) a b -> inverts (M + 1) (make_mass_sphere T a b) B ->
  forall x i, (i < M + 1)%nat -> dotv (M + 1) B x i = dotv (M + 1) (ginv (M + 1) (make_mass_sphere T a b)) x i.
Proof.
  intros [Ha H] HM HB x i Hi. pose proof (mass_pdef T M a b Ha H HM) as P.
  apply (pdef_unique _ _ _ _ P); auto. intros k Hk. rewrite ginv_right by auto. apply HB; auto.
Qed.
Theorem C132_inverse_unique : forall T M a b B B', 0 <= a < b -> mass_exact T (M + 1) a b ->
  inverts (M + 1) (make_mass_sphere T a b) B -> inverts (M + 1) (make_mass_sphere T a b) B' ->
  forall i j, (i <= M)%nat -> (j <= M)%nat -> B i j = B' i j.
Proof.
  intros T M a b B B' H HM HB HB' i j Hi Hj. rewrite <- (col (M + 1) B j i), <- (col (M + 1) B' j i) by lia.
  rewrite (inverse_is T M a b B H HM HB), (inverse_is T M a b B' H HM HB') by lia. reflexivity.
Qed.
Print Assumptions C132_inverse_unique.
Theorem C132_inverse_two_sided : forall T M a b B, 0 <= a < b -> mass_exact T (M + 1) a b ->
  inverts (M + 1) (make_mass_sphere T a b) B -> inverts (M + 1) B (make_mass_sphere T a b).
Proof.
  intros T M a b B H HM HB x i Hi. rewrite (inverse_is T M a b B H HM HB) by auto. apply ginv_left; auto. apply mass_pdef; tauto.
Qed.
Print Assumptions C132_inverse_two_sided.

(** the update of a cell is the same for every inverse that inverts *)
Definition with_inv (c : rhs_cfg) (f : (nat -> nat -> R) -> nat -> nat -> R) : rhs_cfg := {|
  rflux := rflux c; N_ang := N_ang c; mus := mus c; wsa := wsa c; sigma_s := sigma_s c; sigma_t := sigma_t c;
  r_edges := r_edges c; r_Dedges := r_Dedges c; tabs := tabs c; inv := f; Src := Src c |}.
Theorem C132_update_independent_of_the_inverse : forall c f st t V s W W',
  fgeom (rflux c) = Sphere -> 0 <= r_edges c t s < r_edges c t (S s) ->
  let A := make_mass_sphere (tabs c) (r_edges c t s) (r_edges c t (S s)) in
  mass_exact (tabs c) (fM (rflux c) + 1) (r_edges c t s) (r_edges c t (S s)) ->
  inverts (fM (rflux c) + 1) A (inv c A) -> inverts (fM (rflux c) + 1) A (f A) ->
  rhs_space c st t V s = Ok W -> rhs_space (with_inv c f) st t V s = Ok W' ->
  forall a i, (i <= fM (rflux c))%nat -> W a i = W' a i.
Proof.
  intros c f st t V s W W' Hg H A HM H1 H2 HW HW' a i Hi. unfold rhs_space in HW, HW'. cbn [rflux with_inv r_edges r_Dedges N_ang] in HW'.
  rewrite Hg in HW, HW'. cbv zeta in HW, HW'.
  destruct (make_G_sphere _ _ _ _ _) as [G|]; [|discriminate]. cbn [bind] in HW, HW'.
  destruct (make_MPRIME _ _ _ _ _) as [P|]; [|discriminate]. cbn [bind] in HW, HW'.
  change (refl_ok (with_inv c f)) with (refl_ok c) in HW'.
  destruct (_ && _) in HW; [discriminate|]. destruct (_ && _) in HW'; [discriminate|]. injection HW as <-. injection HW' as <-.
  unfold sphere_cell. cbn [rflux with_inv r_edges r_Dedges N_ang mus wsa sigma_s sigma_t tabs inv Src]. cbv zeta.
  rewrite Nat.add_1_r with (n := s). fold A. f_equal. f_equal. unfold refl_index. cbn [N_ang with_inv].
  rewrite (inverse_is _ _ _ _ _ H HM H1), (inverse_is _ _ _ _ _ H HM H2) by lia. reflexivity.
Qed.
Print Assumptions C132_update_independent_of_the_inverse.

(** tables exist for every order, so the statements are about something *)
Example C132_example : forall M, mass_exact ideal (M + 1) 0 1 /\ 0 < make_mass_sphere ideal 0 1 0 0 /\ exists B, inverts (M + 1) (make_mass_sphere ideal 0 1) B.
Proof.
  intros M. assert (HM : mass_exact ideal (M + 1) 0 1) by (apply ideal_mass; lra). split; [auto|split].
  - assert (P : pdef (M + 1) (make_mass_sphere ideal 0 1)) by (apply mass_pdef; auto; lra). apply (pdef_diag _ _ 0 P). lia.
  - apply C132_inverse_exists; auto. lra.
Qed.
