(** C16 - C20, C23, C24, C31, C68, C70, C71: the discontinuous-Galerkin kernel. *)
From Verif Require Import Py PyLemmas Legendre Cheb DGModel DGSpec DGProofs DGInt DGBalance DGFinal.

(** a concrete instance used by the examples: 3 cells [k(1+w), (k+1)(1+w)], slab, M = 2 *)
Definition xcfg (g : geom) : flux_cfg := {| fgeom := g; fM := 2; fN := 3; src4 := false; boundary_source := false;
  uncollided_on := false; ft0 := 1; bon_left := false; bon_right := false; strength := 0; fquad := [] |}.
Definition xE (k : nat) (w : R) : R := INR k * (1 + w).
Lemma xE_incr : increasing 3 (fun k => xE k 0).
Proof. intros k _. unfold xE. rewrite S_INR. lra. Qed.
Lemma xE_der k : is_derive (xE k) 0 (INR k).
Proof. unfold xE. eapply dd_eq; [apply dd_scal, dd_plus; [apply dd_const|apply dd_id]|ring]. Qed.

(* ---------------------------------------------------------------- C16 *)
(** The surface vector of a cell is the face values [face], which are upwind by definition, times speeds relative
    to the moving faces, times the basis at the faces. *)
Theorem C16_flux_is_upwind : forall c st t e D u mul refl s i,
  (2 <= fN c)%nat -> increasing (fN c) e -> (s < fN c)%nat ->
  exists vl vr, face c t e D u mul refl s vl /\ face c t e D u mul refl (S s) vr /\
  snd (make_LU c st t e D u s mul refl) i =
    basis (fgeom c) i (e (S s)) (e s) (e (S s)) * (wt (fgeom c) (e (S s)) * (mul - D (S s)) * vr)
    - basis (fgeom c) i (e s) (e s) (e (S s)) * (wt (fgeom c) (e s) * (mul - D s) * vl).
Proof. intros. apply LU_formula; auto. Qed.
Print Assumptions C16_flux_is_upwind.
Theorem C16_downwind_data_ignored : forall c st t e D u u' mul refl s i,
  (2 <= fN c)%nat -> increasing (fN c) e -> (s < fN c)%nat ->
  (forall f, f = s \/ f = S s -> 0 <= mul - D f -> f = 0%nat \/ forall j, (j <= fM c)%nat -> u (f - 1)%nat j = u' (f - 1)%nat j) ->
  (forall f, f = s \/ f = S s -> mul - D f < 0 -> f = fN c \/ forall j, (j <= fM c)%nat -> u f j = u' f j) ->
  snd (make_LU c st t e D u s mul refl) i = snd (make_LU c st t e D u' s mul refl) i.
Proof. exact upwind_only. Qed.
Print Assumptions C16_downwind_data_ignored.
Theorem C16_face_value_exists_and_is_unique : forall c t e D u mul refl f,
  (2 <= fN c)%nat -> increasing (fN c) e -> (f <= fN c)%nat -> exists! v, face c t e D u mul refl f v.
Proof.
  intros c t e D u mul refl f HN He Hf. destruct (face_exists c t e D u mul refl HN He f Hf) as (v & Hv).
  exists v. split; auto. intros w Hw. eapply face_fun; eauto.
Qed.
Print Assumptions C16_face_value_exists_and_is_unique.
(** cell 1, direction +1, static mesh: changing cell 2 is not seen *)
Example C16_example : forall u u' i, (forall k j, (k < 2)%nat -> u k j = u' k j) ->
  snd (make_LU (xcfg Slab) st0 0 (fun k => xE k 0) (fun _ => 0) u 1 1 (fun _ => 0)) i =
  snd (make_LU (xcfg Slab) st0 0 (fun k => xE k 0) (fun _ => 0) u' 1 1 (fun _ => 0)) i.
Proof.
  intros u u' i H. apply C16_downwind_data_ignored; [cbn; lia|apply xE_incr|cbn; lia| |].
  - intros f [-> | ->] _; right; intros; apply H; lia.
  - intros f _ ?. lra.
Qed.

(* ---------------------------------------------------------------- C17 *)
Theorem C17_flux_single_valued : forall c t e D u mul refl,
  (2 <= fN c)%nat -> increasing (fN c) e ->
  exists F : nat -> R -> Prop, (forall f, (f <= fN c)%nat -> exists! v, F f v) /\
  forall st s i, (s < fN c)%nat -> exists Fl Fr, F s Fl /\ F (S s) Fr /\
    snd (make_LU c st t e D u s mul refl) i =
      basis (fgeom c) i (e (S s)) (e s) (e (S s)) * Fr - basis (fgeom c) i (e s) (e s) (e (S s)) * Fl.
Proof.
  intros c t e D u mul refl HN He.
  exists (fun f w => exists v, face c t e D u mul refl f v /\ w = wt (fgeom c) (e f) * (mul - D f) * v). split.
  - intros f Hf. destruct (face_exists c t e D u mul refl HN He f Hf) as (v & Hv).
    exists (wt (fgeom c) (e f) * (mul - D f) * v). split; [eauto|].
    intros w (v' & Hv' & ->). now rewrite (face_fun c t e D u mul refl HN He f v v' Hv Hv').
  - intros st s i Hs. destruct (LU_formula c t e D u mul refl HN He st s i Hs) as (vl & vr & F1 & F2 & ->).
    eexists _, _. split; [eauto|split; [eauto|reflexivity]].
Qed.
Print Assumptions C17_flux_single_valued.
(** kap is 1 in the slab and sqrt(pi) in the sphere: kap * sqrt(width) turns the zeroth moment into the
    integral of the constant 1. *)
Theorem C17_flux_telescopes : forall c t e D u mul refl (st : nat -> flux_state) v0 vN,
  (2 <= fN c)%nat -> increasing (fN c) e ->
  face c t e D u mul refl 0 v0 -> face c t e D u mul refl (fN c) vN ->
  sumn (fN c) (fun s => kap (fgeom c) * sqrt (e (S s) - e s) * snd (make_LU c (st s) t e D u s mul refl) 0%nat)
   = wt (fgeom c) (e (fN c)) * (mul - D (fN c)) * vN - wt (fgeom c) (e 0%nat) * (mul - D 0%nat) * v0.
Proof.
  intros c t e D u mul refl st v0 vN HN He F0 FN.
  destruct (telescope c t e D u mul refl st HN He (fN c)) as (a & b & Ha & Hb & E); [lia|].
  rewrite (face_fun c t e D u mul refl HN He _ _ _ F0 Ha), (face_fun c t e D u mul refl HN He _ _ _ FN Hb). exact E.
Qed.
Print Assumptions C17_flux_telescopes.
Example C17_example : (2 <= fN (xcfg Sphere))%nat /\ increasing (fN (xcfg Sphere)) (fun k => xE k 0) /\
  (forall u, face (xcfg Sphere) 0 (fun k => xE k 0) (fun _ => 0) u (-1) (fun _ => 0) 3 0).
Proof.
  split; [cbn; lia|split; [apply xE_incr|]]. intro u. apply (face_in_r (xcfg Sphere)); [lra|]. apply ir_vac.
  intros [H|(H & _)]; discriminate.
Qed.

(* ---------------------------------------------------------------- C18 *)
Theorem C18_edge_factors_are_basis_values : forall g i a b, a < b ->
  B_LR_func g i (sqrt (b - a)) = (basis g i a a b, basis g i b a b).
Proof. exact edge_values. Qed.
Print Assumptions C18_edge_factors_are_basis_values.
Theorem C18_slab_basis_code : forall n x a b, a < b -> normPn n x a b = basis Slab n x a b.
Proof. exact normPn_basis. Qed.
Print Assumptions C18_slab_basis_code.
Theorem C18_sphere_basis_code : forall n x a b, a < b -> (n <= 12)%nat -> normTn n x a b = Ok (basis Sphere n x a b).
Proof. exact normTn_basis. Qed.
Print Assumptions C18_sphere_basis_code.
Theorem C18_slab_basis_orthonormal : forall i j a b, a < b ->
  is_RInt (fun x => basis Slab i x a b * basis Slab j x a b) a b (if (i =? j)%nat then 1 else 0).
Proof. exact orthonormal. Qed.
Print Assumptions C18_slab_basis_orthonormal.
Example C18_example : basis Slab 1 4 0 4 = sqrt 3 / sqrt 4 /\ normPn 1 4 0 4 = sqrt 3 / sqrt 4.
Proof.
  assert (E : basis Slab 1 4 0 4 = sqrt 3 / sqrt 4).
  { rewrite basis_slab_r by lra. simpl. replace (2 * 1 + 1) with 3 by ring. now replace (4 - 0) with 4 by ring. }
  split; [exact E|]. rewrite normPn_basis by lra. exact E.
Qed.

(* ---------------------------------------------------------------- C19 *)
Theorem C19_slab_stiffness_exact : forall i j a b, a < b ->
  is_RInt (fun x => Derive (fun y => basis Slab i y a b) x * basis Slab j x a b) a b (L_slab a b i j).
Proof. exact stiffness. Qed.
Print Assumptions C19_slab_stiffness_exact.
Example C19_example : L_slab 0 2 1 0 = sqrt 3 /\ L_slab 0 2 0 1 = 0.
Proof.
  unfold L_slab, L_const. cbn -[INR sqrt]. simpl INR. replace (2 * 1 + 1) with 3 by ring. replace (2 * 0 + 1) with 1 by ring.
  rewrite sqrt_1. split; field.
Qed.

(* ---------------------------------------------------------------- C20 *)
Theorem C20_slab_motion_exact : forall a b t a' b', is_derive a t a' -> is_derive b t b' -> a t < b t -> forall i j,
  is_RInt (fun x => Derive (fun s => basis Slab i x (a s) (b s)) t * basis Slab j x (a t) (b t)) (a t) (b t)
    (G_slab (a t) (b t) a' b' i j).
Proof. exact motion. Qed.
Print Assumptions C20_slab_motion_exact.
Example C20_example : is_derive (fun s => - s) 1 (-1) /\ is_derive (fun s : R => s) 1 1 /\ G_slab (-1) 1 (-1) 1 0 0 = - (1 / 2).
Proof.
  split; [apply dd_opp, dd_id|split; [apply dd_id|]]. unfold G_slab. cbn [Nat.eqb INR]. field.
Qed.

(* ---------------------------------------------------------------- C23 *)
(** core = G U - LU + mu L U; the coefficients of a constant c0 on the cell are its projections. *)
Theorem C23_uniform_field_preserved : forall c st t (E : nat -> R -> R) D mul c0,
  fgeom c = Slab -> increasing (fN c) (fun k => E k t) ->
  (forall k, (k <= fN c)%nat -> is_derive (E k) t (D k)) ->
  forall s i, (0 < s < fN c - 1)%nat -> (i <= fM c)%nat ->
  let u := fun k j => RInt (fun x => c0 * basis Slab j x (E k t) (E (S k) t)) (E k t) (E (S k) t) in
  is_derive (fun w => RInt (fun x => c0 * basis Slab i x (E s w) (E (S s) w)) (E s w) (E (S s) w)) t
    (dotv (fM c + 1) (G_slab (E s t) (E (S s) t) (D s) (D (S s))) (u s) i
     - snd (make_LU c st t (fun k => E k t) D u s mul (fun _ => 0)) i
     + mul * dotv (fM c + 1) (L_slab (E s t) (E (S s) t)) (u s) i).
Proof. exact free_stream. Qed.
Print Assumptions C23_uniform_field_preserved.
Example C23_example : fgeom (xcfg Slab) = Slab /\ increasing (fN (xcfg Slab)) (fun k => xE k 0) /\
  (forall k, (k <= fN (xcfg Slab))%nat -> is_derive (xE k) 0 (INR k)) /\ (0 < 1 < fN (xcfg Slab) - 1)%nat /\ (2 <= fM (xcfg Slab))%nat.
Proof. split; [auto|split; [apply xE_incr|split; [intros; apply xE_der|cbn; lia]]]. Qed.

(* ---------------------------------------------------------------- C24 *)
Theorem C24_slab_cell_balance : forall c t E D,
  fgeom c = Slab -> (2 <= fN c)%nat -> increasing (fN c) (fun k => E k t) ->
  (forall k, (k <= fN c)%nat -> is_derive (E k) t (D k)) ->
  forall N_ang ws mus st cc S0 (V : nat -> nat -> nat -> R -> R) a s vl vr, (s < fN c)%nat ->
  is_derive (V a s 0%nat) t (slab_rhs c st N_ang ws mus cc t (fun k => E k t) D S0 (fun l k j => V l k j t) a s 0) ->
  face c t (fun k => E k t) D (fun k j => V a k j t) (mus a) (fun _ => 0) s vl ->
  face c t (fun k => E k t) D (fun k j => V a k j t) (mus a) (fun _ => 0) (S s) vr ->
  is_derive (content c E (V a s) s) t
    ((mus a - D s) * vl - (mus a - D (S s)) * vr
     - content c E (V a s) s t + cc * sumn N_ang (fun l => ws l * content c E (V l s) s t)
     + 1 / 2 * scontent c (fun k => E k t) S0 s).
Proof. exact balance. Qed.
Print Assumptions C24_slab_cell_balance.
Theorem C24_slab_total_balance : forall c t E D,
  fgeom c = Slab -> (2 <= fN c)%nat -> increasing (fN c) (fun k => E k t) ->
  (forall k, (k <= fN c)%nat -> is_derive (E k) t (D k)) ->
  forall N_ang ws mus st cc S0 (V : nat -> nat -> nat -> R -> R) a v0 vN,
  (forall s, (s < fN c)%nat -> is_derive (V a s 0%nat) t
      (slab_rhs c (st s) N_ang ws mus cc t (fun k => E k t) D (S0 s) (fun l k j => V l k j t) a s 0)) ->
  face c t (fun k => E k t) D (fun k j => V a k j t) (mus a) (fun _ => 0) 0 v0 ->
  face c t (fun k => E k t) D (fun k j => V a k j t) (mus a) (fun _ => 0) (fN c) vN ->
  is_derive (fun w => sumn (fN c) (fun s => content c E (V a s) s w)) t
    ((mus a - D 0%nat) * v0 - (mus a - D (fN c)) * vN
     + sumn (fN c) (fun s => - content c E (V a s) s t + cc * sumn N_ang (fun l => ws l * content c E (V l s) s t)
     + 1 / 2 * scontent c (fun k => E k t) (S0 s) s)).
Proof. exact balance_total. Qed.
Print Assumptions C24_slab_total_balance.
(** a trajectory meeting the derivative hypothesis always exists: straight lines *)
Example C24_example : forall r, exists V : R -> R, is_derive V 0 r.
Proof. intro r. exists (fun w => r * w). eapply dd_eq; [apply dd_scal, dd_id|ring]. Qed.

(* ---------------------------------------------------------------- C70 *)
Theorem C70_slab_update_is_the_weak_form : forall c t E D,
  fgeom c = Slab -> (2 <= fN c)%nat -> increasing (fN c) (fun k => E k t) ->
  (forall k, (k <= fN c)%nat -> is_derive (E k) t (D k)) ->
  forall N_ang ws mus st cc S0 (V : nat -> nat -> nat -> R) a s i, (s < fN c)%nat -> (i <= fM c)%nat ->
  exists vl vr Iv,
   face c t (fun k => E k t) D (V a) (mus a) (fun _ => 0) s vl /\
   face c t (fun k => E k t) D (V a) (mus a) (fun _ => 0) (S s) vr /\
   is_RInt (fun x =>
      (Derive (fun w => basis Slab i x (E s w) (E (S s) w)) t + mus a * Derive (fun y => basis Slab i y (E s t) (E (S s) t)) x)
        * field Slab (fM c) (V a s) (E s t) (E (S s) t) x
      + (- field Slab (fM c) (V a s) (E s t) (E (S s) t) x
         + cc * sumn N_ang (fun l => ws l * field Slab (fM c) (V l s) (E s t) (E (S s) t) x)
         + 1 / 2 * field Slab (fM c) S0 (E s t) (E (S s) t) x) * basis Slab i x (E s t) (E (S s) t))
      (E s t) (E (S s) t) Iv /\
   slab_rhs c st N_ang ws mus cc t (fun k => E k t) D S0 V a s i =
     Iv - (basis Slab i (E (S s) t) (E s t) (E (S s) t) * ((mus a - D (S s)) * vr)
           - basis Slab i (E s t) (E s t) (E (S s) t) * ((mus a - D s) * vl)).
Proof. exact weak_form. Qed.
Print Assumptions C70_slab_update_is_the_weak_form.
Example C70_example : (1 < fN (xcfg Slab))%nat /\ (2 <= fM (xcfg Slab))%nat. Proof. cbn; lia. Qed.

(* ---------------------------------------------------------------- C71 *)
Theorem C71_thermal_coupling_conserves_energy : forall c t E D,
  fgeom c = Slab -> (2 <= fN c)%nat -> increasing (fN c) (fun k => E k t) ->
  (forall k, (k <= fN c)%nat -> is_derive (E k) t (D k)) ->
  forall N_ang ws mus st ste cc c_a l H S0 (V : nat -> nat -> nat -> R -> R) (ee : nat -> nat -> R -> R) s (vl vr : nat -> R) el er,
  (s < fN c)%nat -> l <> 0 -> sumn N_ang ws = 1 -> cc + c_a = 1 ->
  (forall a, (a < N_ang)%nat -> is_derive (V a s 0%nat) t
     (slab_rhs_thermal c (st a) N_ang ws mus cc c_a l t (fun k => E k t) D H S0 (fun l k j => V l k j t) a s 0)) ->
  is_derive (ee s 0%nat) t (slab_energy c ste N_ang ws c_a l t (fun k => E k t) D H S0 (fun l k j => V l k j t) (fun k j => ee k j t) s 0) ->
  (forall a, (a < N_ang)%nat -> face c t (fun k => E k t) D (fun k j => V a k j t) (mus a) (fun _ => 0) s (vl a)) ->
  (forall a, (a < N_ang)%nat -> face c t (fun k => E k t) D (fun k j => V a k j t) (mus a) (fun _ => 0) (S s) (vr a)) ->
  face c t (fun k => E k t) D (fun k j => ee k j t) 0 (fun _ => 0) s el ->
  face c t (fun k => E k t) D (fun k j => ee k j t) 0 (fun _ => 0) (S s) er ->
  is_derive (fun w => content c E (ee s) s w + 2 * sumn N_ang (fun a => ws a * content c E (V a s) s w)) t
    (D (S s) * er - D s * el + 2 * sumn N_ang (fun a => ws a * ((mus a - D s) * vl a - (mus a - D (S s)) * vr a))
     + scontent c (fun k => E k t) S0 s / l).
Proof. exact energy_balance. Qed.
Print Assumptions C71_thermal_coupling_conserves_energy.
Example C71_example : sumn 2 (fun _ => 1 / 2) = 1 /\ 1 / 4 + 3 / 4 = 1. Proof. cbn [sumn]. split; field. Qed.

(* ---------------------------------------------------------------- C72 *)
Theorem C72_flux_has_no_memory : forall c st st' t e D u s mul refl i, (s < fN c)%nat ->
  snd (make_LU c st t e D u s mul refl) i = snd (make_LU c st' t e D u s mul refl) i.
Proof. exact flux_state_free. Qed.
Print Assumptions C72_flux_has_no_memory.
Theorem C72_mirror_state_only_at_centre : forall c st t e D u s mul refl refl' i,
  fgeom c = Slab \/ (0 < s)%nat \/ mul - D s < 0 ->
  snd (make_LU c st t e D u s mul refl) i = snd (make_LU c st t e D u s mul refl') i.
Proof. exact flux_refl_free. Qed.
Print Assumptions C72_mirror_state_only_at_centre.
(** the leftover is real: after the last cell hp keeps the value of the call before *)
Example C72_example : forall v, shp (make_h (xcfg Slab) (fun k => xE k 0) 2 {| sh := 0; shp := v; shm := 0 |}) = v.
Proof. reflexivity. Qed.

(* ---------------------------------------------------------------- C31 *)
Theorem C31_chebyshev_table : forall n th, (n <= 12)%nat -> eval_Tn n (cos th) = Ok (cos (INR n * th)).
Proof. intros. rewrite eval_Tn_cheb by auto. now rewrite cheb_cos. Qed.
Print Assumptions C31_chebyshev_table.
Theorem C31_chebyshev_table_polynomial : forall n x, (n <= 12)%nat -> eval_Tn n x = Ok (cheb n x).
Proof. exact eval_Tn_cheb. Qed.
Print Assumptions C31_chebyshev_table_polynomial.
Theorem C31_high_orders_rejected : forall n x, (12 < n)%nat -> eval_Tn n x = Err AssertionError.
Proof. exact eval_Tn_high. Qed.
Print Assumptions C31_high_orders_rejected.
Example C31_example : eval_Tn 2 (1 / 2) = Ok (-1 + 2 * (1 / 2) ^ 2). Proof. reflexivity. Qed.

(* ---------------------------------------------------------------- C68 *)
Theorem C68_left_inflow_gate : forall c t, is_boundary_source_on c 0 t = true <->
  (src4 c = true \/ (boundary_source c = true /\ uncollided_on c = false /\ t <= ft0 c /\ bon_left c = true)).
Proof. exact left_on_iff. Qed.
Print Assumptions C68_left_inflow_gate.
Theorem C68_right_inflow_gate : forall c t, (2 <= fN c)%nat -> is_boundary_source_on c (fN c - 1) t = true <->
  (src4 c = true \/ (boundary_source c = true /\ uncollided_on c = false /\ t <= ft0 c /\ bon_right c = true)).
Proof. exact right_on_iff. Qed.
Print Assumptions C68_right_inflow_gate.
(** boundaries are vacuum otherwise: inflow is 0 in the slab *)
Theorem C68_vacuum_otherwise : forall c t e D u mul v, (2 <= fN c)%nat -> increasing (fN c) e -> fgeom c = Slab ->
  (0 <= mul - D 0%nat -> ~ left_on c t -> face c t e D u mul (fun _ => 0) 0 v -> v = 0) /\
  (mul - D (fN c) < 0 -> ~ right_on c t -> face c t e D u mul (fun _ => 0) (fN c) v -> v = 0).
Proof.
  intros c t e D u mul v HN He Hg. split; intros Hs Hoff HF.
  - eapply (face_fun c t e D u mul (fun _ => 0) HN He 0); [exact HF|]. apply face_in_l; auto. now apply il_vac.
  - eapply (face_fun c t e D u mul (fun _ => 0) HN He (fN c)); [exact HF|]. apply face_in_r; auto. now apply ir_vac.
Qed.
Print Assumptions C68_vacuum_otherwise.
(** the same of the code: with the gate off nothing enters the end cells through the outer faces *)
Theorem C68_closed_gate_lets_nothing_in : forall c st t e D u mul refl i, (2 <= fN c)%nat -> increasing (fN c) e -> fgeom c = Slab ->
  (0 <= mul - D 0%nat -> ~ left_on c t -> exists vr, face c t e D u mul refl 1 vr /\
    snd (make_LU c st t e D u 0 mul refl) i = basis Slab i (e 1%nat) (e 0%nat) (e 1%nat) * ((mul - D 1%nat) * vr)) /\
  (mul - D (fN c) < 0 -> ~ right_on c t -> exists vl, face c t e D u mul refl (fN c - 1) vl /\
    snd (make_LU c st t e D u (fN c - 1) mul refl) i = - (basis Slab i (e (fN c - 1)%nat) (e (fN c - 1)%nat) (e (fN c)) * ((mul - D (fN c - 1)%nat) * vl))).
Proof.
  intros c st t e D u mul refl i HN He Hg. split; intros Hs Hoff.
  - destruct (C16_flux_is_upwind c st t e D u mul refl 0 i HN He ltac:(lia)) as (vl & vr & F1 & F2 & E). exists vr. split; [exact F2|].
    rewrite E, Hg. rewrite (face_fun c t e D u mul refl HN He 0 vl 0 F1); [unfold wt; ring|]. apply face_in_l; auto. now apply il_vac.
  - destruct (C16_flux_is_upwind c st t e D u mul refl (fN c - 1) i HN He ltac:(lia)) as (vl & vr & F1 & F2 & E). exists vl. split; [exact F1|].
    replace (S (fN c - 1)) with (fN c) in * by lia. rewrite E, Hg. rewrite (face_fun c t e D u mul refl HN He (fN c) vr 0 F2); [unfold wt; ring|]. apply face_in_r; auto. now apply ir_vac.
Qed.
Print Assumptions C68_closed_gate_lets_nothing_in.
(** with a single cell the right end is gated by the left switch *)
Theorem C68_single_cell_right_gate_refuted : exists c t, fN c = 1%nat /\ bon_right c = false /\ src4 c = false /\
  is_boundary_source_on c (fN c - 1) t = true.
Proof.
  exists {| fgeom := Slab; fM := 0; fN := 1; src4 := false; boundary_source := true; uncollided_on := false; ft0 := 1;
    bon_left := true; bon_right := false; strength := 1; fquad := [] |}, 0.
  repeat split. unfold is_boundary_source_on. cbn. rewrite Rleb_true by lra. reflexivity.
Qed.
Print Assumptions C68_single_cell_right_gate_refuted.
Example C68_example : is_boundary_source_on (xcfg Slab) 0 0 = false. Proof. reflexivity. Qed.
