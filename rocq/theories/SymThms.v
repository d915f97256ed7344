(** C123, C124, C125: mirror images, changes of units and superpositions of slab solutions on moving meshes. *)
From Coq Require Import Permutation.
From Coquelicot Require Import Coquelicot.
From Verif Require Import Py PyLemmas Calc Legendre DGModel DGSpec DGProofs DGInt DGBalance StabSpec StabProofs StabThms SymSpec SymProofs.

(* ---------------------------------------------------------------- C123 *)
(** The mirror image of a trajectory is a trajectory of the mirrored problem: edges and their velocities reflected at
    0, directions reversed, the boundary source on the other side. *)
Theorem C123_mirror : forall c c' E D N_ang ws mus cc S0 st st' V t0 t1,
  fgeom c = Slab -> (2 <= fN c)%nat -> mirrors c c' -> mesh_ok c E D t0 t1 -> solves c E D N_ang ws mus cc S0 st V t0 t1 ->
  mesh_ok c' (fun k t => flip_mesh (fN c) (fun k => E k t) k) (fun k t => flip_mesh (fN c) (fun k => D k t) k) t0 t1 /\
  solves c' (fun k t => flip_mesh (fN c) (fun k => E k t) k) (fun k t => flip_mesh (fN c) (fun k => D k t) k)
    N_ang (flip_ws N_ang ws) (flip_mus N_ang mus) cc (fun s j t => flip_cells (fN c) (fun s j => S0 s j t) s j) st'
    (fun a s j t => flip_sol N_ang (fN c) (fun a s j => V a s j t) a s j) t0 t1.
Proof.
  intros c c' E D N_ang ws mus cc S0 st st' V t0 t1 Hg HN Hm HM HS.
  assert (EN : fN c' = fN c) by (destruct Hm as (_ & _ & H & _); auto). assert (EM : fM c' = fM c) by (destruct Hm as (_ & H & _); auto).
  split.
  - intros t Ht. destruct (HM t Ht) as [I K]. rewrite EN. split; [now apply increasing_flip|].
    intros k Hk. unfold flip_mesh. apply dd_opp, K. lia.
  - intros t Ht a s i Ha Hs Hi. rewrite EN in Hs. rewrite EM in Hi. destruct (HM t Ht) as [I K].
    eapply dd_eq; [|symmetry; exact (rhs_flip c c' t (fun k => E k t) (fun k => D k t) N_ang ws mus cc (fun j => S0 (fN c - 1 - s)%nat j t) (fun l k j => V l k j t)
      (st t (N_ang - 1 - a)%nat (fN c - 1 - s)%nat) (st' t a s) a s i Hg HN I Hm Ha Hs)].
    apply (dd_scal (V (N_ang - 1 - a)%nat (fN c - 1 - s)%nat i)). apply (HS t Ht); auto; lia.
Qed.
Print Assumptions C123_mirror.
(** and it takes at x the values the original takes at -x *)
Theorem C123_mirror_values : forall M N_ang N e V a s x, (s < N)%nat ->
  field Slab M (flip_sol N_ang N V a s) (flip_mesh N e s) (flip_mesh N e (S s)) x =
  field Slab M (V (N_ang - 1 - a)%nat (N - 1 - s)%nat) (e (N - 1 - s)%nat) (e (S (N - 1 - s))) (- x).
Proof.
  intros M N_ang N e V a s x Hs. unfold flip_sol, flip_cells, flip_mesh.
  replace (N - S s)%nat with (N - 1 - s)%nat by lia. replace (N - s)%nat with (S (N - 1 - s)) by lia.
  rewrite <- (field_flip M (V (N_ang - 1 - a)%nat (N - 1 - s)%nat) _ _ (- x)). rewrite Ropp_involutive. reflexivity.
Qed.
Print Assumptions C123_mirror_values.
(** If mesh, quadrature, source, boundary and initial values are symmetric, the solution stays symmetric. *)
Theorem C123_symmetric_stays_symmetric : forall c E D N_ang ws mus cc S0 st V t0 t1,
  fgeom c = Slab -> (2 <= fN c)%nat -> t0 <= t1 -> mirrors c c -> mesh_ok c E D t0 t1 ->
  (forall t k, t0 <= t <= t1 -> (k <= fN c)%nat -> E k t = - E (fN c - k)%nat t /\ D k t = - D (fN c - k)%nat t) ->
  (forall a, (a < N_ang)%nat -> 0 < ws a /\ ws a = ws (N_ang - 1 - a)%nat /\ mus a = - mus (N_ang - 1 - a)%nat) -> sumn N_ang ws = 1 -> 0 <= cc ->
  (forall t s j, t0 <= t <= t1 -> (s < fN c)%nat -> (j <= fM c)%nat -> S0 s j t = (-1) ^ j * S0 (fN c - 1 - s)%nat j t) ->
  solves c E D N_ang ws mus cc S0 st V t0 t1 ->
  (forall a s x, (a < N_ang)%nat -> (s < fN c)%nat ->
     field Slab (fM c) (fun j => V a s j t0) (E s t0) (E (S s) t0) x =
     field Slab (fM c) (fun j => V (N_ang - 1 - a)%nat (fN c - 1 - s)%nat j t0) (E (fN c - 1 - s)%nat t0) (E (S (fN c - 1 - s)) t0) (- x)) ->
  forall a s x, (a < N_ang)%nat -> (s < fN c)%nat ->
     field Slab (fM c) (fun j => V a s j t1) (E s t1) (E (S s) t1) x =
     field Slab (fM c) (fun j => V (N_ang - 1 - a)%nat (fN c - 1 - s)%nat j t1) (E (fN c - 1 - s)%nat t1) (E (S (fN c - 1 - s)) t1) (- x).
Proof.
  intros c E D N_ang ws mus cc S0 st V t0 t1 Hg HN Hle Hm HM HE Hw H1 Hc HS0 HS H0.
  assert (EF : forall t k, t0 <= t <= t1 -> (k <= fN c)%nat -> flip_mesh (fN c) (fun k => E k t) k = E k t) by (intros t k Ht Hk; unfold flip_mesh; destruct (HE t k Ht Hk) as [-> _]; reflexivity).
  assert (DF : forall t k, t0 <= t <= t1 -> (k <= fN c)%nat -> flip_mesh (fN c) (fun k => D k t) k = D k t) by (intros t k Ht Hk; unfold flip_mesh; destruct (HE t k Ht Hk) as [_ ->]; reflexivity).
  (* the values of the mirror image *)
  assert (MV : forall t a s x, t0 <= t <= t1 -> (s < fN c)%nat ->
    field Slab (fM c) (fun j => V (N_ang - 1 - a)%nat (fN c - 1 - s)%nat j t) (E (fN c - 1 - s)%nat t) (E (S (fN c - 1 - s)) t) (- x) =
    field Slab (fM c) (flip_sol N_ang (fN c) (fun a s j => V a s j t) a s) (E s t) (E (S s) t) x).
  { intros t a s x Ht Hs. rewrite <- (EF t s), <- (EF t (S s)) by (auto; lia). rewrite C123_mirror_values by exact Hs. reflexivity. }
  assert (Z0 : forall a s i, (a < N_ang)%nat -> (s < fN c)%nat -> (i <= fM c)%nat -> V a s i t0 = flip_sol N_ang (fN c) (fun a s j => V a s j t0) a s i).
  { intros a s i Ha Hs Hi. destruct (HM t0 ltac:(lra)) as [I _]. specialize (I s Hs).
    apply (int_uniq2 _ _ _ _ _ (project_field (fM c) (fun j => V a s j t0) (E s t0) (E (S s) t0) i I Hi)).
    eapply is_RInt_ext; [|exact (project_field (fM c) (flip_sol N_ang (fN c) (fun a s j => V a s j t0) a s) (E s t0) (E (S s) t0) i I Hi)].
    intros x _. cbv beta. rewrite H0 by auto. rewrite MV by (auto; lra). reflexivity. }
  destruct (C123_mirror c c E D N_ang ws mus cc S0 st st V t0 t1 Hg HN Hm HM HS) as [_ HF].
  assert (HW : solves c E D N_ang ws mus cc S0 st (fun a s j t => flip_sol N_ang (fN c) (fun a s j => V a s j t) a s j) t0 t1).
  { intros t Ht a s i Ha Hs Hi. eapply dd_eq; [apply (HF t Ht a s i Ha Hs Hi)|]. destruct (HM t Ht) as [I _].
    apply rhs_ext; auto.
    - intros b Hb. destruct (Hw b Hb) as (_ & Ew & Em). unfold flip_ws, flip_mus. auto.
    - unfold flip_cells. symmetry. apply HS0; auto. }
  intros a s x Ha Hs. rewrite MV by (auto; lra). unfold field. apply sumn_ext. intros j Hj. f_equal.
  apply (C104_unique c E D N_ang ws mus cc S0 st st V (fun a s j t => flip_sol N_ang (fN c) (fun a s j => V a s j t) a s j) t0 t1 Hg HN Hle HM); auto; [|lia].
  intros b Hb. apply (Hw b Hb).
Qed.
Print Assumptions C123_symmetric_stays_symmetric.
(** a symmetric trajectory: cells [-1,0] and [0,1], directions -1 and 1, no scattering, particles only where they leave *)
Definition yC : flux_cfg := {| fgeom := Slab; fM := 0; fN := 2; src4 := false; boundary_source := false;
  uncollided_on := false; ft0 := 1; bon_left := false; bon_right := false; strength := 0; fquad := nil |}.
Definition yE (k : nat) (w : R) : R := INR k - 1.
Definition yM (a : nat) : R := if (a =? 0)%nat then -1 else 1.
Definition yV (a s i : nat) (t : R) : R := if (a =? s)%nat then exp (- 2 * t) else 0.
Lemma yE_incr t : increasing 2 (fun k => yE k t).
Proof. intros k _. unfold yE. rewrite S_INR. lra. Qed.
Lemma ybasis t s x : basis Slab 0 x (yE s t) (yE (S s) t) = 1.
Proof.
  unfold basis, yE. rewrite S_INR. cbn [leg INR]. replace ((2 * 0 + 1) / (INR s + 1 - 1 - (INR s - 1))) with 1 by (field; lra). rewrite sqrt_1, leg_0. ring.
Qed.
Example C123_example_mirrors : mirrors yC yC.
Proof. repeat split; reflexivity. Qed.
Example C123_example_mesh t0 t1 : mesh_ok yC yE (fun _ _ => 0) t0 t1.
Proof. intros t _. split; [apply yE_incr|]. intros k _. exact (dd_const (INR k - 1) t). Qed.
Example C123_example t0 t1 : solves yC yE (fun _ _ => 0) 2 (fun _ => 1 / 2) yM 0 (fun _ _ _ => 0) (fun _ _ _ => s0) yV t0 t1.
Proof.
  intros t Ht a s i Ha Hs Hi. cbn in Hi. assert (i = 0%nat) as -> by lia. cbn in Hs.
  unfold slab_rhs. cbv zeta.
  destruct (LU_formula yC t (fun k => yE k t) (fun _ => 0) (fun k j => yV a k j t) (yM a) (fun _ => 0) ltac:(cbn; lia) (yE_incr t) s0 s 0%nat Hs) as (vl & vr & F1 & F2 & ->).
  pose proof (face_fun yC t (fun k => yE k t) (fun _ => 0) (fun k j => yV a k j t) (yM a) (fun _ => 0) ltac:(cbn; lia) (yE_incr t)) as FF.
  assert (FV : forall k, field Slab 0 (fun j => yV a k j t) (yE k t) (yE (S k) t) (yE (S k) t) = yV a k 0 t /\ field Slab 0 (fun j => yV a k j t) (yE k t) (yE (S k) t) (yE k t) = yV a k 0 t).
  { intros k. unfold field. cbn [sumn Nat.add]. rewrite !ybasis. split; ring. }
  rewrite !ybasis. unfold dotv, make_P, G_slab, L_slab, L_const. cbn [fM yC Nat.add sumn wt fgeom Nat.eqb Nat.ltb Nat.leb].
  assert (DE : is_derive (fun z => exp (-2 * z)) t (- 2 * exp (- 2 * t))).
  { eapply dd_eq; [apply (dd_exp (fun z => - 2 * z)), (dd_scal (fun z => z)), dd_id|]. ring. }
  destruct a as [|[|a]]; [| |lia].
  - assert (P : yM 0 - 0 < 0) by (unfold yM; cbn; lra).
    assert (vl = yV 0 s 0 t) as -> by (rewrite (FF _ _ _ F1 (face_from_right yC t (fun k => yE k t) (fun _ => 0) (fun k j => yV 0 k j t) (yM 0) (fun _ => 0) s P Hs)); apply FV).
    destruct s as [|[|s]]; [| |lia].
    + assert (vr = 0) as -> by (rewrite (FF _ _ _ F2 (face_from_right yC t (fun k => yE k t) (fun _ => 0) (fun k j => yV 0 k j t) (yM 0) (fun _ => 0) 1 P ltac:(cbn; lia))); apply (FV 1%nat)).
      unfold yV. cbn [Nat.eqb]. eapply dd_eq; [exact DE|]. unfold yE, yM. cbn [INR Nat.eqb Nat.add andb]. field; lra.
    + assert (vr = 0) as ->.
      { apply (FF _ _ _ F2). apply (face_in_r yC); [exact P|]. apply ir_vac. intros [X|[X _]]; discriminate. }
      unfold yV. cbn [Nat.eqb]. eapply dd_eq; [apply dd_const|]. unfold yE, yM. cbn [INR Nat.eqb Nat.add andb]. field; lra.
  - assert (P : 0 <= yM 1 - 0) by (unfold yM; cbn; lra).
    assert (vr = yV 1 s 0 t) as -> by (rewrite (FF _ _ _ F2 (face_from_left yC t (fun k => yE k t) (fun _ => 0) (fun k j => yV 1 k j t) (yM 1) (fun _ => 0) s P Hs)); apply FV).
    destruct s as [|[|s]]; [| |lia].
    + assert (vl = 0) as ->.
      { apply (FF _ _ _ F1). apply face_in_l; [exact P|]. apply il_vac; [|reflexivity]. intros [X|[X _]]; discriminate. }
      unfold yV. cbn [Nat.eqb]. eapply dd_eq; [apply dd_const|]. unfold yE, yM. cbn [INR Nat.eqb Nat.add andb]. field; lra.
    + assert (vl = 0) as -> by (rewrite (FF _ _ _ F1 (face_from_left yC t (fun k => yE k t) (fun _ => 0) (fun k j => yV 1 k j t) (yM 1) (fun _ => 0) 0 P ltac:(cbn; lia))); apply (FV 0%nat)).
      unfold yV. cbn [Nat.eqb]. eapply dd_eq; [exact DE|]. unfold yE, yM. cbn [INR Nat.eqb Nat.add andb]. field; lra.
Qed.
(** the value 2 in the left cell in direction -1 is the value -2 in the right cell in direction 1 *)
Example C123_example_symmetric t x : field Slab 0 (fun j => yV 0 0 j t) (yE 0 t) (yE 1 t) x = field Slab 0 (fun j => yV 1 1 j t) (yE 1 t) (yE 2 t) (- x) /\
  yE 0 t = - yE 2 t /\ yM 0 = - yM 1.
Proof. split; [|unfold yE, yM; cbn; lra]. unfold field. cbn [sumn Nat.add]. rewrite !ybasis. unfold yV. cbn [Nat.eqb]. ring. Qed.

(* ---------------------------------------------------------------- C124 *)
(** Measuring lengths and times in units of l turns a trajectory with the parameter l into one with the parameter 1. *)
Theorem C124_units : forall l c E D N_ang ws mus cc c_a H S0 st ste st' ste' V ee t0 t1,
  0 < l -> fgeom c = Slab -> (2 <= fN c)%nat -> src4 c = false -> mesh_ok c E D t0 t1 ->
  solves_thermal c E D N_ang ws mus cc c_a l H S0 st ste V ee t0 t1 ->
  mesh_ok (in_units l c) (fun k w => E k (l * w) / l) (fun k w => D k (l * w)) (t0 / l) (t1 / l) /\
  solves_thermal (in_units l c) (fun k w => E k (l * w) / l) (fun k w => D k (l * w)) N_ang ws mus cc c_a 1
    (fun s j w => H s j (l * w) / sqrt l) (fun s j w => S0 s j (l * w) / sqrt l) st' ste'
    (fun a s j w => V a s j (l * w) / sqrt l) (fun s j w => ee s j (l * w) / sqrt l) (t0 / l) (t1 / l).
Proof.
  intros l c E D N_ang ws mus cc c_a H S0 st ste st' ste' V ee t0 t1 Hl Hg HN H4 HM HS. pose proof (sl l Hl) as Q. pose proof (l_sq l Hl) as LQ.
  assert (TT : forall w, t0 / l <= w <= t1 / l -> t0 <= l * w <= t1).
  { intros w [A B]. apply (Rmult_le_compat_l l) in A; [|lra]. apply (Rmult_le_compat_l l) in B; [|lra].
    replace (l * (t0 / l)) with t0 in A by (field; lra). replace (l * (t1 / l)) with t1 in B by (field; lra). lra. }
  assert (LW : forall w : R, is_derive (fun z => l * z) w l).
  { intros w. eapply dd_eq; [apply (dd_scal (fun z => z)), dd_id|]. ring. }
  split.
  - intros w Hw. destruct (HM _ (TT w Hw)) as [I K]. split; [now apply (increasing_scale l c (fun k => E k (l * w)))|].
    intros k Hk. eapply dd_eq; [apply dd_divc, (dd_comp (E k) (fun z => l * z)); [apply K; exact Hk|apply LW]|]. field. lra.
  - intros w Hw s i Hs Hi. destruct (HM _ (TT w Hw)) as [I K]. destruct (HS _ (TT w Hw) s i Hs Hi) as [HV He].
    assert (EW : l * w / l = w) by (field; lra). split.
    + intros a Ha. eapply dd_eq; [apply dd_divc, (dd_comp (V a s i) (fun z => l * z)); [apply HV; exact Ha|apply LW]|].
      pose proof (thermal_scale l c (l * w) (fun k => E k (l * w)) (fun k => D k (l * w)) Hl Hg HN I H4 N_ang ws mus cc c_a (fun j => H s j (l * w)) (fun j => S0 s j (l * w)) (fun a s j => V a s j (l * w)) (fun a s j => V a s j (l * w) / sqrt l)
        (st (l * w) a s) (st' w a s) a s i Hs ltac:(auto)) as X. rewrite EW in X. etransitivity; [|symmetry; exact X]. rewrite LQ at 1. field. lra.
    + eapply dd_eq; [apply dd_divc, (dd_comp (ee s i) (fun z => l * z)); [exact He|apply LW]|].
      pose proof (energy_scale l c (l * w) (fun k => E k (l * w)) (fun k => D k (l * w)) Hl Hg HN I H4 N_ang ws c_a (fun j => H s j (l * w)) (fun j => S0 s j (l * w)) (fun a s j => V a s j (l * w)) (fun a s j => V a s j (l * w) / sqrt l) (fun s j => ee s j (l * w)) (fun s j => ee s j (l * w) / sqrt l)
        (ste (l * w) s) (ste' w s) s i Hs ltac:(auto) ltac:(auto)) as X. rewrite EW in X. etransitivity; [|symmetry; exact X]. rewrite LQ at 1. field. lra.
Qed.
Print Assumptions C124_units.
(** The values do not change: the same number at the point x / l as at x before. *)
Theorem C124_same_values : forall l M u a b x, 0 < l -> a < b -> field Slab M (fun j => u j / sqrt l) (a / l) (b / l) (x / l) = field Slab M u a b x.
Proof. intros. now apply (field_scale l M u). Qed.
Print Assumptions C124_same_values.
(** Nor does the projection of data: the coefficients of a function f of x are those of the function f (l y) of y
    times the square root of l. *)
Theorem C124_same_data : forall l (f : R -> R) i a b c0, 0 < l -> a < b ->
  is_RInt (fun x => f x * basis Slab i x a b) a b c0 -> is_RInt (fun y => f (l * y) * basis Slab i y (a / l) (b / l)) (a / l) (b / l) (c0 / sqrt l).
Proof.
  intros l f i a b c0 Hl Hab H. pose proof (sl l Hl) as Q. pose proof (l_sq l Hl) as LQ.
  replace a with (l * (a / l) + 0) in H by (field; lra). replace b with (l * (b / l) + 0) in H by (field; lra).
  apply (is_RInt_comp_lin (V := R_NormedModule) _ l 0 (a / l) (b / l)) in H.
  apply (is_RInt_scal (V := R_NormedModule) _ _ _ (/ sqrt l)) in H.
  replace (c0 / sqrt l) with (scal (/ sqrt l) c0) by (unfold scal; cbn; unfold mult; cbn; field; lra).
  eapply is_RInt_ext; [|exact H]. intros y _. rewrite !Rplus_0_r.
  replace (l * (a / l)) with a by (field; lra). replace (l * (b / l)) with b by (field; lra).
  change (/ sqrt l * (l * (f (l * y) * basis Slab i (l * y) a b)) = f (l * y) * basis Slab i y (a / l) (b / l)).
  assert (B : basis Slab i y (a / l) (b / l) = sqrt l * basis Slab i (l * y) a b) by (rewrite <- basis_scale by auto; f_equal; field; lra).
  rewrite B. assert (K : / sqrt l * l = sqrt l) by (rewrite LQ at 2; field; lra). rewrite <- Rmult_assoc, K. ring.
Qed.
Print Assumptions C124_same_data.
(** the function x on [0,2] measured in units of 2: its value at 2 is the value at 1 of the scaled coefficients *)
Example C124_example u : field Slab 3 (fun j => u j / sqrt 2) (0 / 2) (2 / 2) (2 / 2) = field Slab 3 u 0 2 2.
Proof. apply C124_same_values; lra. Qed.
(** a trajectory with the parameter 2: the radiation of the right cell leaves and is scattered, the material is at rest *)
Definition uV (a s i : nat) (t : R) : R := if (s =? 1)%nat then exp (- (5 / 4) * t) else 0.
Example C124_example_trajectory t0 t1 : solves_thermal sC sE (fun _ _ => 0) 1 (fun _ => 1) (fun _ => 1) (1 / 2) 0 2 (fun _ _ _ => 0) (fun _ _ _ => 0)
  (fun _ _ _ => s0) (fun _ _ => s0) uV (fun _ _ _ => 1) t0 t1.
Proof.
  intros t Ht s i Hs Hi. cbn in Hi. assert (i = 0%nat) as -> by lia. cbn in Hs. split.
  - intros a Ha. assert (a = 0%nat) as -> by lia. unfold slab_rhs_thermal. cbv zeta.
    destruct (LU_formula sC t (fun k => sE k t) (fun _ => 0) (fun k j => uV 0 k j t) 1 (fun _ => 0) ltac:(cbn; lia) (sE_incr t) s0 s 0%nat Hs) as (vl & vr & F1 & F2 & ->).
    assert (P : 0 <= 1 - 0) by lra.
    pose proof (face_fun sC t (fun k => sE k t) (fun _ => 0) (fun k j => uV 0 k j t) 1 (fun _ => 0) ltac:(cbn; lia) (sE_incr t)) as FF.
    assert (vr = uV 0 s 0 t) as ->.
    { rewrite (FF _ _ _ F2 (face_from_left sC t (fun k => sE k t) (fun _ => 0) (fun k j => uV 0 k j t) 1 (fun _ => 0) s P Hs)).
      unfold field. cbn [fgeom fM sC]. cbn [sumn Nat.add]. rewrite basis0 by auto. ring. }
    assert (vl = 0) as ->.
    { destruct s as [|[|s]]; [| |lia].
      - apply (FF _ _ _ F1). apply face_in_l; [exact P|]. apply il_vac; [|reflexivity]. intros [X|[X _]]; discriminate.
      - rewrite (FF _ _ _ F1 (face_from_left sC t (fun k => sE k t) (fun _ => 0) (fun k j => uV 0 k j t) 1 (fun _ => 0) 0 P ltac:(cbn; lia))).
        unfold field, uV. cbn [fgeom fM sC]. cbn [sumn Nat.add Nat.eqb]. ring. }
    rewrite !basis0 by exact Hs. unfold dotv, make_P, G_slab, L_slab, L_const. cbn [fM sC uncollided_on Nat.add sumn wt fgeom Nat.eqb Nat.ltb Nat.leb].
    destruct s as [|[|s]]; [| |lia]; unfold uV; cbn [Nat.eqb].
    + eapply dd_eq; [apply dd_const|]. unfold sE. cbn [INR Nat.add]. field.
    + eapply dd_eq; [apply (dd_exp (fun z => - (5 / 4) * z)), (dd_scal (fun z => z)), dd_id|]. cbv beta. unfold sE. cbn [INR Nat.add]. cbn [andb]. field.
  - unfold slab_energy. cbv zeta.
    destruct (LU_formula sC t (fun k => sE k t) (fun _ => 0) (fun k j => 1) 0 (fun _ => 0) ltac:(cbn; lia) (sE_incr t) s0 s 0%nat Hs) as (vl & vr & _ & _ & ->).
    unfold dotv, make_P, G_slab. cbn [fM sC uncollided_on Nat.add sumn wt fgeom Nat.eqb Nat.ltb Nat.leb]. eapply dd_eq; [apply dd_const|]. unfold sE. rewrite Nat.add_1_r, S_INR. field. lra.
Qed.

(* ---------------------------------------------------------------- C125 *)
(** Solutions of the same problem with different sources and boundary strengths can be superposed. *)
Theorem C125_superposition : forall c E D N_ang ws mus cc p q x y S1 S2 st1 st2 st3 V W t0 t1,
  fgeom c = Slab -> (2 <= fN c)%nat -> src4 c = false -> mesh_ok c E D t0 t1 ->
  solves (with_strength c x) E D N_ang ws mus cc S1 st1 V t0 t1 -> solves (with_strength c y) E D N_ang ws mus cc S2 st2 W t0 t1 ->
  solves (with_strength c (p * x + q * y)) E D N_ang ws mus cc (fun s j t => p * S1 s j t + q * S2 s j t) st3
    (fun a s j t => p * V a s j t + q * W a s j t) t0 t1.
Proof.
  intros c E D N_ang ws mus cc p q x y S1 S2 st1 st2 st3 V W t0 t1 Hg HN H4 HM HV HW t Ht a s i Ha Hs Hi. destruct (HM t Ht) as [I _].
  eapply dd_eq; [apply (dd_plus (fun w => p * V a s i w) (fun w => q * W a s i w)); apply dd_scal; [apply (HV t Ht)|apply (HW t Ht)]; auto|].
  symmetry. apply (rhs_lin c t (fun k => E k t) (fun k => D k t) p q x y Hg HN I H4 (st1 t a s) (st2 t a s) (st3 t a s) N_ang ws mus cc
    (fun j => S1 s j t) (fun j => S2 s j t) (fun l k j => V l k j t) (fun l k j => W l k j t)). exact Hs.
Qed.
Print Assumptions C125_superposition.
(** Hence the computed angular flux is proportional to the strength of the boundary source: with no source inside and
    an empty start, twice the strength gives twice the flux. *)
Theorem C125_proportional : forall c E D N_ang ws mus cc q x st1 st2 V W t0 t1,
  fgeom c = Slab -> (2 <= fN c)%nat -> src4 c = false -> t0 <= t1 -> mesh_ok c E D t0 t1 ->
  (forall a, (a < N_ang)%nat -> 0 < ws a) -> sumn N_ang ws = 1 -> 0 <= cc ->
  solves (with_strength c x) E D N_ang ws mus cc (fun _ _ _ => 0) st1 V t0 t1 ->
  solves (with_strength c (q * x)) E D N_ang ws mus cc (fun _ _ _ => 0) st2 W t0 t1 ->
  (forall a s i, (a < N_ang)%nat -> (s < fN c)%nat -> (i <= fM c)%nat -> V a s i t0 = 0 /\ W a s i t0 = 0) ->
  forall a s z, (a < N_ang)%nat -> (s < fN c)%nat ->
    field Slab (fM c) (fun j => W a s j t1) (E s t1) (E (S s) t1) z = q * field Slab (fM c) (fun j => V a s j t1) (E s t1) (E (S s) t1) z.
Proof.
  intros c E D N_ang ws mus cc q x st1 st2 V W t0 t1 Hg HN H4 Hle HM Hw H1 Hc HV HW Z a s z Ha Hs.
  pose proof (C125_superposition c E D N_ang ws mus cc q 0 x x (fun _ _ _ => 0) (fun _ _ _ => 0) st1 st1 st1 V V t0 t1 Hg HN H4 HM HV HV) as X.
  replace (q * x + 0 * x) with (q * x) in X by ring.
  assert (X2 : solves (with_strength c (q * x)) E D N_ang ws mus cc (fun _ _ _ => 0) st1 (fun a s j t => q * V a s j t + 0 * V a s j t) t0 t1).
  { intros t Ht b k i Hb Hk Hi. eapply dd_eq; [apply (X t Ht b k i Hb Hk Hi)|]. destruct (HM t Ht) as [I _]. apply rhs_ext; auto. ring. }
  rewrite (field_lin (fM c) (fun j => V a s j t1) (fun _ => 0) (fun j => W a s j t1) q 0); [ring|].
  intros j Hj. rewrite (C104_unique (with_strength c (q * x)) E D N_ang ws mus cc (fun _ _ _ => 0) st2 st1 W (fun a s j t => q * V a s j t + 0 * V a s j t) t0 t1 Hg HN Hle HM Hw H1 Hc HW X2) with (a := a) (s := s) (i := j) by
    (auto; intros b k i Hb Hk Hi; destruct (Z b k i Hb Hk Hi) as [-> ->]; ring). ring.
Qed.
Print Assumptions C125_proportional.
(** the trajectory of [C103_example] and the difference of it with itself *)
Example C125_example t0 t1 : solves (with_strength sC (2 * 0 + (-1) * 0)) sE (fun _ _ => 0) 1 (fun _ => 1) (fun _ => 1) (1 / 2) (fun _ _ t => 2 * 0 + (-1) * 0) (fun _ _ _ => s0)
  (fun a s j t => 2 * sV a s j t + (-1) * sV a s j t) t0 t1 /\ 2 * sV 0 1 0 0 + (-1) * sV 0 1 0 0 = 1.
Proof.
  split; [|unfold sV; cbn; rewrite Rmult_0_r, exp_0; lra].
  apply (C125_superposition sC sE (fun _ _ => 0) 1 (fun _ => 1) (fun _ => 1) (1 / 2) 2 (-1) 0 0 (fun _ _ _ => 0) (fun _ _ _ => 0) (fun _ _ _ => s0) (fun _ _ _ => s0) (fun _ _ _ => s0));
    [reflexivity|cbn; lia|reflexivity|apply C103_example_mesh|apply C103_example|apply C103_example].
Qed.
