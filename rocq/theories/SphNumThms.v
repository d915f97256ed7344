(** C135: the number of particles in the sphere. *)
From Coq Require Import ZArith QArith Qreals.
From Coquelicot Require Import Coquelicot.
From Verif Require Import Py PyLemmas Calc Legendre Cheb DGModel DGSpec DGProofs DGInt DGBalance MatModel RhsModel RhsProofs RhsThms
  SpherePoly SphereProofs SphereBal SphereWeak SphereThms StabProofs PosDef SphMass SphUnif SphEnergy SphSpec SphStab SphNum.
Open Scope R_scope.

(** Directions weighted with the widths of their angular cells: the number changes by what leaves through the outer edge,
    relative to its motion, by collisions and by the source; nothing is lost at the centre, between cells or in turning. *)
Theorem C135_number_rate : forall c t E V st,
  fgeom (rflux c) = Sphere -> (2 <= fN (rflux c))%nat -> (2 <= N_ang c)%nat -> directions (N_ang c) (mus c) ->
  sph_mesh_at c E t -> sph_tables_at c E t -> sph_solves_at c st V t -> ~ right_on (rflux c) t ->
  let N := fN (rflux c) in let q := awidth (N_ang c) (mus c) in
  is_derive (sph_number c q E V) t
   (- sumn (N_ang c) (fun a => q a * (E N t ^ 2 * Rmax 0 (mus c a - r_Dedges c t N) * psi_at c E V a (N - 1) t (E N t)))
    + 2 * sigma_s c * sph_number c (wsa c) E V t - sph_number c q E V t
    + sigma_s c * sumn N (fun s => sqrt (PI * (E (S s) t - E s t)) * Src c t (E s t) (E (S s) t) 0%nat)).
Proof.
  intros c t E V st Hg HN HK Hd HM HT HS HR N q. unfold N, q. clear N q.
  eapply dd_eq; [apply (number_rate c t E V st Hg HN HM HT HS HR)|].
  set (N := fN (rflux c)). set (K := N_ang c). set (q := awidth K (mus c)).
  set (cont := fun a s => sph_content (rflux c) E (V a s) s t). set (sc := sumn N (fun s => sumn K (fun l => wsa c l * sph_content (rflux c) E (V l s) s t))).
  set (sr := sumn N (fun s => sqrt (PI * (E (S s) t - E s t)) * Src c t (E s t) (E (S s) t) 0%nat)).
  assert (Q2 : sumn K q = 2) by (apply (C28_widths K (mus c) HK Hd)).
  assert (TZ : sumn K (fun a => q a * sumn N (fun s => sph_turn c t E V a s)) = 0).
  { rewrite (sumn_ext K _ (fun a => sumn N (fun s => q a * sph_turn c t E V a s))) by (intros; now rewrite <- sumn_scal).
    rewrite sumn_swap. apply sumn_zero. intros s Hs. now apply (turn_zero c t E V HM HK Hd). }
  assert (SC : sph_number c (wsa c) E V t = sc).
  { unfold sph_number, sc. fold K N. rewrite (sumn_ext K _ (fun a => sumn N (fun s => wsa c a * sph_content (rflux c) E (V a s) s t))) by (intros; now rewrite <- sumn_scal).
    apply sumn_swap. }
  rewrite SC.
  rewrite (sumn_ext K _ (fun a => -1 * (q a * sph_out c t E V a) + -1 * (q a * sumn N (fun s => sph_turn c t E V a s)) + (sigma_s c * sc) * q a
     + -1 * (q a * sumn N (cont a)) + (1 / 2 * sigma_s c * sr) * q a)).
  - rewrite !sumn_plus, !sumn_scal, TZ, Q2. unfold sph_out, sph_number. fold K N. change (sumn K (fun a => q a * sumn N (cont a))) with
      (sumn K (fun a => q a * sumn N (fun s => RInt (fun x => x ^ 2 * psi_at c E V a s t x) (E s t) (E (S s) t)))). field.
  - intros a _. unfold sc. unfold cont. ring.
Qed.
Print Assumptions C135_number_rate.

(** Scattering weights half the widths, no source, outer edge as fast as every direction: the number is known at all
    times, and constant for pure scattering. *)
Theorem C135_number : forall c E st V t0 t1,
  fgeom (rflux c) = Sphere -> (2 <= fN (rflux c))%nat -> (2 <= N_ang c)%nat -> directions (N_ang c) (mus c) -> t0 <= t1 ->
  (forall a, (a < N_ang c)%nat -> wsa c a = awidth (N_ang c) (mus c) a / 2) ->
  (forall t, t0 <= t <= t1 -> ~ right_on (rflux c) t /\
     (forall a, (a < N_ang c)%nat -> mus c a <= r_Dedges c t (fN (rflux c))) /\
     (forall s, (s < fN (rflux c))%nat -> Src c t (E s t) (E (S s) t) 0%nat = 0)) ->
  sph_run c E st V t0 t1 ->
  let q := awidth (N_ang c) (mus c) in
  sph_number c q E V t1 = exp (- (1 - sigma_s c) * (t1 - t0)) * sph_number c q E V t0.
Proof.
  intros c E st V t0 t1 Hg HN HK Hd Hle Hw HB Hrun q. set (f := sph_number c q E V).
  assert (HQ : forall t, sph_number c (wsa c) E V t = 1 / 2 * f t).
  { intros t. unfold f, sph_number. rewrite <- sumn_scal. apply sumn_ext. intros a Ha. rewrite Hw by auto. unfold q. field. }
  assert (X : forall t, t0 <= t <= t1 -> is_derive f t (- (1 - sigma_s c) * f t)).
  { intros t Ht. destruct (HB t Ht) as (R0 & O & S0). destruct (Hrun t Ht) as (M1 & M2 & M3).
    eapply dd_eq; [apply (C135_number_rate c t E V (st t) Hg HN HK Hd M1 M2 M3 R0)|]. cbv beta. rewrite HQ. fold q f.
    rewrite (sumn_zero (N_ang c)). 2: { intros a Ha. rewrite Rmax_left; [ring|]. specialize (O a Ha). lra. }
    rewrite (sumn_zero (fN (rflux c))). 2: { intros s Hs. rewrite S0 by auto. ring. }
    field. }
  apply Rle_antisym.
  - apply (decay f (1 - sigma_s c) t0 t1 Hle). intros t Ht. eexists. split; [apply X; exact Ht|]. lra.
  - assert (Y := decay (fun w => - f w) (1 - sigma_s c) t0 t1 Hle). cbv beta in Y.
    assert (Y' : - f t1 <= exp (- (1 - sigma_s c) * (t1 - t0)) * - f t0); [|lra].
    apply Y. intros t Ht. eexists. split; [apply dd_opp, X; exact Ht|]. lra.
Qed.
Print Assumptions C135_number.

(** With the Gauss weights of three directions, which the code uses for scattering and for the reported flux, the number
    changes though every collision is a scattering, there is no source and nothing is near the outer edge. *)
Definition nE (k : nat) (w : R) : R := INR k.
Definition ncfg : rhs_cfg := {|
  rflux := {| fgeom := Sphere; fM := 0; fN := 2; src4 := false; boundary_source := false; uncollided_on := false;
              ft0 := 1; bon_left := false; bon_right := false; strength := 0; fquad := nil |};
  N_ang := 3; mus := g3; wsa := w3; sigma_s := 1; sigma_t := 1;
  r_edges := fun w k => nE k w; r_Dedges := fun _ _ => 0; tabs := ideal; inv := ginv 1; Src := fun _ _ _ _ => 0 |}.
Definition nv (a s j : nat) : R := if (a =? 0)%nat && (s =? 0)%nat then sqrt (PI * 1) else 0.
Lemma nE_w s w : nE (S s) w - nE s w = 1.
Proof. unfold nE. rewrite S_INR. ring. Qed.
Lemma n_field a s x : field Sphere 0 (nv a s) (nE s 0) (nE (S s) 0) x = if (a =? 0)%nat && (s =? 0)%nat then 1 else 0.
Proof.
  unfold field. cbn [sumn Nat.add]. unfold nv. destruct ((a =? 0)%nat && (s =? 0)%nat); [|ring].
  unfold basis. rewrite nE_w. cbn [Nat.eqb]. rewrite cheb_0. pose proof PI_RGT_0.
  assert (P : 0 < PI * 1) by lra. rewrite sqrt_div_alt by auto. rewrite sqrt_1.
  assert (Q : 0 < sqrt (PI * 1)) by (apply sqrt_lt_R0; auto). field. lra.
Qed.
Lemma n_mesh : sph_mesh_at ncfg nE 0.
Proof.
  refine (conj (fun _ => eq_refl) (conj _ (conj _ _))).
  - intros k _. pose proof (nE_w k 0). lra.
  - reflexivity.
  - intros k _. exact (dd_const (INR k) 0).
Qed.
Lemma n_tables : sph_tables_at ncfg nE 0.
Proof.
  intros s Hs. cbn zeta. assert (H : 0 <= nE s 0 < nE (S s) 0) by (pose proof (nE_w s 0); unfold nE in *; pose proof (pos_INR s); lra).
  assert (M1 : mass_exact ideal (0 + 1) (nE s 0) (nE (S s) 0)) by (apply ideal_mass; apply H).
  refine (conj M1 (conj _ (conj _ _))); [apply ideal_J; apply H|apply ideal_L; apply H|].
  intros x i Hi. apply ginv_right; [|exact Hi]. apply (mass_pdef ideal 0); tauto.
Qed.
Lemma n_runs v s : exists W, rhs_space ncfg (fun _ => {| sh := 0; shp := 0; shm := 0 |}) 0 v s = Ok W.
Proof.
  apply C25_update_defined_iff; [reflexivity| |cbn; lia]. apply (refl_all_ok ncfg); cbn [N_ang mus ncfg].
  - destruct g3_dir as (H & _). exact H.
  - intros a Ha. assert (a = 0 \/ a = 1 \/ a = 2)%nat as [-> | [-> | ->]] by lia; cbn [g3 Nat.sub]; lra.
Qed.
Theorem C135_gauss_weights_change_the_number_refuted : exists c E V st d,
  fgeom (rflux c) = Sphere /\ (2 <= fN (rflux c))%nat /\ (2 <= N_ang c)%nat /\ directions (N_ang c) (mus c) /\
  (forall p q r, sumn (N_ang c) (fun a => wsa c a * (p * mus c a ^ 2 + q * mus c a + r)) = p / 3 + r) /\
  sigma_s c = 1 /\ (forall t a b i, Src c t a b i = 0) /\ sph_mesh_at c E 0 /\ sph_tables_at c E 0 /\ sph_solves_at c st V 0 /\ ~ right_on (rflux c) 0 /\
  (forall a x, psi_at c E V a (fN (rflux c) - 1) 0 x = 0) /\
  is_derive (sph_number c (wsa c) E V) 0 d /\ 0 < d.
Proof.
  destruct (traj_at ncfg (fun _ _ => {| sh := 0; shp := 0; shm := 0 |}) 0 nv) as (V & HS & HV); [intros s _; apply n_runs|].
  assert (HR : ~ right_on (rflux ncfg) 0) by (intros [X|[X _]]; discriminate).
  assert (PS : forall a s x, psi_at ncfg nE V a s 0 x = if (a =? 0)%nat && (s =? 0)%nat then 1 else 0).
  { intros a s x. rewrite <- (n_field a s x). unfold psi_at, field. cbn [rflux ncfg fM]. apply sumn_ext. intros. now rewrite HV. }
  pose proof (number_rate ncfg 0 nE V (fun _ _ => {| sh := 0; shp := 0; shm := 0 |}) eq_refl (le_n 2) n_mesh n_tables HS HR w3) as K.
  exists ncfg, nE, V, (fun _ _ => {| sh := 0; shp := 0; shm := 0 |}). eexists.
  refine (conj eq_refl (conj (le_n 2) (conj _ (conj g3_dir (conj _ (conj eq_refl (conj (fun _ _ _ _ => eq_refl)
    (conj n_mesh (conj n_tables (conj HS (conj HR (conj _ (conj K _))))))))))))).
  - cbn; lia.
  - intros p q r. cbn [N_ang ncfg mus wsa sumn w3 g3]. destruct s35 as [_ E5].
    transitivity (p * (5 / 9 * (sqrt (3 / 5) * sqrt (3 / 5))) + r); [field|rewrite E5; field].
  - intros a x. rewrite PS. cbn. now rewrite andb_false_r.
  - destruct s35 as [[A B] E5].
    assert (O : forall a, sph_out ncfg 0 nE V a = 0) by (intros a; unfold sph_out; rewrite PS; cbn [fN rflux ncfg Nat.sub Nat.eqb]; rewrite andb_false_r; ring).
    assert (C : forall a s, sph_content (rflux ncfg) nE (V a s) s 0 = if (a =? 0)%nat && (s =? 0)%nat then RInt (fun x => x ^ 2) 0 1 else 0).
    { intros a s. change (sph_content (rflux ncfg) nE (V a s) s 0) with (RInt (fun x => x ^ 2 * psi_at ncfg nE V a s 0 x) (nE s 0) (nE (S s) 0)).
      destruct ((a =? 0)%nat && (s =? 0)%nat) eqn:Q.
      - apply andb_true_iff in Q. destruct Q as [Q1 Q2]. apply Nat.eqb_eq in Q1, Q2. subst. change (nE 0 0) with 0. change (nE 1 0) with 1. apply RInt_ext. intros x _. rewrite PS. cbn [Nat.eqb andb]. exact (Rmult_1_r _).
      - apply int_uniq. eapply int_ext; [|apply (int_eq (fun _ => 0) _ _ _ _ (int_const 0 _ _)); ring]. intros x. cbv beta. rewrite PS, Q. ring. }
    assert (T : forall a s, sph_turn ncfg 0 nE V a s = if (s =? 0)%nat then 1 / 2 * aterm 3 g3 (fun l => if (l =? 0)%nat then 1 else 0) a else 0).
    { intros a s. unfold sph_turn. apply int_uniq. destruct (Nat.eqb_spec s 0) as [->|Z].
      - apply (int_ext (fun x => aterm 3 g3 (fun l => if (l =? 0)%nat then 1 else 0) a * x)).
        + intros x. rewrite Rmult_comm. f_equal. cbn [N_ang ncfg mus]. f_equal. apply FunctionalExtensionality.functional_extensionality. intros l. rewrite PS. cbn [Nat.eqb]. now rewrite andb_true_r.
        + apply (int_eq _ _ _ (aterm 3 g3 (fun l => if (l =? 0)%nat then 1 else 0) a * (1 ^ 2 / 2 - 0 ^ 2 / 2))); [|field].
          apply int_scal. unfold nE. cbn [INR]. apply (int_ftc (fun x => x ^ 2 / 2)); [intros x; auto_derive; [auto|field]|intros x; apply cid].
      - eapply int_ext; [|apply (int_eq (fun _ => 0) _ _ _ _ (int_const 0 _ _)); ring]. intros x. cbv beta. 
        replace (fun l => psi_at ncfg nE V l s 0 x) with (fun _ : nat => 0); [rewrite aterm_zero; ring|].
        apply FunctionalExtensionality.functional_extensionality. intros l. rewrite PS. destruct (Nat.eqb_spec s 0); [lia|]. now rewrite andb_false_r. }
    cbn [N_ang ncfg fN rflux sumn sigma_s Src wsa]. rewrite !O, !C, !T. cbn [Nat.eqb andb w3]. generalize (RInt (fun x => x ^ 2) 0 1). intros z.
    unfold aterm, finite_diff_uneven. cbn [Nat.eqb Nat.sub Nat.add negb andb g3]. cbv zeta.
    set (s := sqrt (3 / 5)) in *.
    match goal with |- 0 < ?e => replace e with ((17 / 20) / 4 * (4 / 9 / s - 5 / 18 / (1 - s / 2))) end.
    2: { replace (17 / 20) with (1 - (s * s) / 4) by (rewrite E5; field). field. split; lra. }
    apply Rmult_lt_0_compat; [lra|]. 
    assert (4 / 9 * (5 / 4) <= 4 / 9 / s). { apply Rmult_le_compat_l; [lra|]. apply Rmult_le_reg_r with s; [lra|]. rewrite Rinv_l by lra. lra. }
    assert (5 / 18 / (1 - s / 2) <= 5 / 18 * (5 / 3)). { apply Rmult_le_compat_l; [lra|]. apply Rmult_le_reg_r with (1 - s / 2); [lra|]. rewrite Rinv_l by lra. lra. }
    lra.
Qed.
Print Assumptions C135_gauss_weights_change_the_number_refuted.
