(** The number of particles in the whole sphere. *)
From Coq Require Import ZArith QArith Qreals.
From Coquelicot Require Import Coquelicot.
From Verif Require Import Py PyLemmas Calc Legendre Cheb DGModel DGSpec DGProofs DGInt DGBalance DGFinal GmatModel MatModel RhsModel RhsProofs
  SpherePoly SphereProofs SphereBal SphereWeak SphereThms PosDef SphMass SphUnif SphEnergy SphSpec SphStab.
Open Scope R_scope.

(** r^2-weighted integral over the sphere, summed over the directions with weights q *)
Definition sph_number (c : rhs_cfg) (q : nat -> R) (E : nat -> R -> R) (V : nat -> nat -> nat -> R -> R) (w : R) : R :=
  sumn (N_ang c) (fun a => q a * sumn (fN (rflux c)) (fun s => RInt (fun x => x ^ 2 * psi_at c E V a s w x) (E s w) (E (S s) w))).

Section T.
Variables (c : rhs_cfg) (t : R) (E : nat -> R -> R) (V : nat -> nat -> nat -> R -> R) (st : nat -> nat -> flux_state).
Let fc := rflux c.
Let n := (fM fc + 1)%nat.
Let Vt := fun l k j => V l k j t.
Let D := r_Dedges c t.
Let N := fN fc.
Let K := N_ang c.
Let P := psi_at c E V.
Hypothesis Hg : fgeom fc = Sphere.
Hypothesis HN : (2 <= N)%nat.
Hypothesis HMesh : sph_mesh_at c E t.
Hypothesis HTab : sph_tables_at c E t.
Hypothesis HSol : sph_solves_at c st V t.
Hypothesis HR : ~ right_on fc t.
Let cont a s := sph_content fc E (V a s) s t.

(** what leaves through the outer edge *)
Definition sph_out (a : nat) : R :=
  E (fN (rflux c)) t ^ 2 * Rmax 0 (mus c a - r_Dedges c t (fN (rflux c))) * psi_at c E V a (fN (rflux c) - 1) t (E (fN (rflux c)) t).
Definition sph_turn (a s : nat) : R :=
  RInt (fun x => x * aterm (N_ang c) (mus c) (fun l => psi_at c E V l s t x) a) (E s t) (E (S s) t).

Lemma outer_face a : (a < K)%nat -> exists v, (forall f, (f <= N)%nat -> face fc t (fun k => E k t) D (Vt a) (mus c a) (Vt (refl_index c 0 a) 0%nat) f (v f)) /\
  E N t ^ 2 * (mus c a - D N) * v N = sph_out a.
Proof.
  intros Ha. destruct HMesh as (HE & He & H0 & HD).
  destruct (face_exists fc t (fun k => E k t) D (Vt a) (mus c a) (Vt (refl_index c 0 a) 0%nat) HN He 0 (Nat.le_0_l _)) as (v0 & F0).
  pose (v := fun f => match f with O => v0 | S s => if Rle_lt_dec 0 (mus c a - D (S s)) then P a s t (E (S s) t) else outside c E V a s t end).
  exists v. split.
  - intros [|s] Hs; [exact F0|]. cbn [v]. destruct (Rle_lt_dec 0 (mus c a - D (S s))) as [Hp|Hp].
    + unfold P, psi_at. fold fc. rewrite <- Hg. now apply (face_from_left fc t (fun k => E k t) D (Vt a) (mus c a) (Vt (refl_index c 0 a) 0%nat) s).
    + unfold outside. fold fc. fold N. destruct (Nat.eqb_spec (S s) N) as [EN|NN].
      * rewrite EN in *. apply face_in_r; [exact Hp|]. now apply ir_vac.
      * unfold psi_at. fold fc. rewrite <- Hg. apply (face_from_right fc t (fun k => E k t) D (Vt a) (mus c a) (Vt (refl_index c 0 a) 0%nat) (S s)); [auto|]. fold N. lia.
  - unfold sph_out. fold fc N D. assert (EN : exists m, N = S m) by (exists (N - 1)%nat; lia). destruct EN as (m & EN).
    rewrite EN. replace (S m - 1)%nat with m by lia. cbn [v]. destruct (Rle_lt_dec 0 (mus c a - D (S m))) as [Hp|Hp].
    + rewrite Rmax_right by auto. reflexivity.
    + rewrite Rmax_left by lra. unfold outside. fold fc N. rewrite EN, Nat.eqb_refl. ring.
Qed.

Lemma number_rate q : is_derive (sph_number c q E V) t
  (sumn K (fun a => q a * (- sph_out a - sumn N (fun s => sph_turn a s)
     + sigma_s c * sumn N (fun s => sumn K (fun l => wsa c l * cont l s)) - sumn N (cont a)
     + 1 / 2 * sigma_s c * sumn N (fun s => sqrt (PI * (E (S s) t - E s t)) * Src c t (E s t) (E (S s) t) 0%nat)))).
Proof.
  destruct HMesh as (HE & He & H0 & HD).
  unfold sph_number. apply (dd_sumn K (fun a w => q a * sumn N (fun s => sph_content fc E (V a s) s w))). intros a Ha. apply dd_scal.
  destruct (outer_face a Ha) as (v & Fv & EO).
  eapply dd_eq.
  - apply (dd_sumn N (fun s w => sph_content fc E (V a s) s w)). intros s Hs. destruct (HSol s Hs) as (W & HW & HV).
    destruct (HTab s Hs) as (T1 & T2 & T3 & T4).
    assert (HVa : forall j, (j < fM (rflux c) + 1)%nat -> is_derive (V a s j) t (W a j)) by (intros; apply HV; [auto|lia]).
    apply (C25_sphere_cell_balance c t E V (st s) Hg HN HE He HD s W Hs HW T1 T2 T4 a HVa (v s) (v (S s))).
    + destruct (Nat.eq_dec s 0) as [Z|Z].
      * rewrite Z. apply Fv. lia.
      * eapply face_refl; [lia|]. apply Fv. unfold N in *. lia.
    + eapply face_refl; [lia|]. apply Fv. exact Hs.
  - cbv beta. fold D fc N K.
    rewrite (sumn_ext N _ (fun s => -1 * (E (S s) t ^ 2 * (mus c a - D (S s)) * v (S s) - E s t ^ 2 * (mus c a - D s) * v s) + -1 * sph_turn a s
       + sigma_s c * sumn K (fun l => wsa c l * cont l s) + -1 * cont a s
       + 1 / 2 * sigma_s c * (sqrt (PI * (E (S s) t - E s t)) * Src c t (E s t) (E (S s) t) 0%nat))).
    + rewrite !sumn_plus, !sumn_scal, (sumn_telescope N (fun s => E s t ^ 2 * (mus c a - D s) * v s)), EO, H0. change (sumn N (fun s => sph_turn a s)) with (sumn N (sph_turn a)). field.
    + intros s Hs. assert (T : sph_turn a s = RInt (fun x => x * field Sphere (fM fc) (fun j => aterm K (mus c) (fun l => V l s j t) a) (E s t) (E (S s) t) x) (E s t) (E (S s) t)).
      { unfold sph_turn. apply RInt_ext. intros x _. f_equal. unfold field, psi_at. symmetry. apply (aterm_field K (mus c) (fM fc + 1) (fun l j => V l s j t)). }
      rewrite T. unfold cont. ring.
Qed.

(** weights equal to the widths of the angular cells: turning changes nothing *)
Lemma turn_zero : (2 <= K)%nat -> directions K (mus c) -> forall s, (s < N)%nat -> sumn K (fun a => awidth K (mus c) a * sph_turn a s) = 0.
Proof.
  intros HK Hd s Hs. destruct HMesh as (HE & He & H0 & HD).
  assert (CP : forall a x, continuous (P a s t) x) by (intros; unfold P, psi_at; apply sph_field_cont; exact (He s Hs)).
  assert (CT : forall a x, continuous (fun x => aterm K (mus c) (fun l => P l s t x) a) x).
  { intros a x. unfold aterm, finite_diff_uneven. cbv zeta. destruct (negb _ && negb _); [|destruct (a =? 0)%nat]; apply cdivc.
    - apply cminus; (apply cmult; [apply cconst|]); (apply cmult; [apply cconst|]); apply cplus; apply CP.
    - apply cmult; [apply cconst|]. apply cmult; [apply cconst|]. apply cplus; apply CP.
    - apply cmult; [apply cconst|]. apply cmult; [apply cconst|]. apply cplus; apply CP. }
  eapply int_uniq2.
  - apply int_sumn. intros a _. apply int_scal. apply int_val. intros x. apply cmult; [apply cid|apply CT].
  - apply (int_ext (fun _ => 0)); [|apply (int_eq (fun _ => 0) _ _ _ _ (int_const 0 _ _)); ring].
    intros x. transitivity (x * sumn K (fun a => awidth K (mus c) a * aterm K (mus c) (fun l => P l s t x) a)).
    + cbv beta. rewrite (redistribution_zero K (mus c) (fun l => P l s t x) HK Hd). symmetry. apply Rmult_0_r.
    + rewrite <- sumn_scal. apply sumn_ext. intros a _; cbv beta delta [P K]; ring.
Qed.
End T.

(** every state of a defined right-hand side moves at its rate for some course of the coefficients *)
Lemma traj_at c st t v : (forall s, (s < fN (rflux c))%nat -> exists W, rhs_space c (st s) t v s = Ok W) ->
  exists V, sph_solves_at c st V t /\ forall a s j, V a s j t = v a s j.
Proof.
  intros H. pose (W := fun s => match rhs_space c (st s) t v s with Ok W => W | Err _ => fun _ _ => 0 end).
  pose (V := fun (a s j : nat) (w : R) => v a s j + W s a j * (w - t)).
  assert (EV : (fun l k j => V l k j t) = v).
  { do 3 (apply FunctionalExtensionality.functional_extensionality; intro). unfold V. ring. }
  exists V. split.
  - intros s Hs. exists (W s). rewrite EV. split.
    + destruct (H s Hs) as (W' & E). unfold W. now rewrite E.
    + intros a j _ _. unfold V. eapply dd_eq; [apply dd_plus; [apply dd_const|apply dd_scal, dd_minus; [apply dd_id|apply dd_const]]|ring].
  - intros a s j. unfold V. ring.
Qed.
