(** Rate of change of the projection of a smooth function on a moving cell. *)
From Coquelicot Require Import Coquelicot.
From Verif Require Import Py PyLemmas Calc Legendre Cheb DGModel DGSpec DGProofs DGInt DGBalance StabSpec ErrSpec.

Lemma c2_cont (f : R -> R -> R) x t : continuity_2d_pt f x t <-> continuous (fun p : R * R => f (fst p) (snd p)) (x, t).
Proof. apply continuity_2d_pt_filterlim. Qed.
Lemma chain2 (f fx ft : R -> R -> R) (g : R -> R) t g' : c1 f fx ft -> is_derive g t g' ->
  is_derive (fun w => f (g w) w) t (g' * fx (g t) t + ft (g t) t).
Proof.
  intros H Hg. unfold is_derive.
  eapply filterdiff_ext_lin.
  - apply (filterdiff_comp'_2 (K := R_AbsRing) (T := R_NormedModule) (U := R_NormedModule) (V := R_NormedModule) (W := R_NormedModule)
      g (fun w => w) f t (fun y => scal y g') (fun y => y) (fun u v => plus (scal u (fx (g t) t)) (scal v (ft (g t) t)))).
    + exact Hg.
    + apply filterdiff_id.
    + apply (is_derive_filterdiff f (g t) t fx (ft (g t) t)).
      * apply filter_forall. intros [u v]. cbn. apply H.
      * apply H.
      * apply c2_cont. apply H.
  - intros y. cbn. unfold scal, plus; cbn. unfold mult; cbn. ring.
Qed.
Lemma c1_cont f fx ft x t : c1 f fx ft -> continuous (fun y => f y t) x.
Proof. intros H. apply (ex_derive_continuous (V := R_NormedModule)). exists (fx x t). destruct (H x t) as [K _]. exact K. Qed.
Lemma cont_x (f : R -> R -> R) x t : continuity_2d_pt f x t -> continuous (fun y => f y t) x.
Proof.
  intros H. apply c2_cont in H.
  apply (continuous_comp_2 (fun y : R => y) (fun _ : R => t) f x); [apply cid|apply cconst|exact H].
Qed.

Section Leib.
Variables (a b da db : R -> R) (psi fx ft : R -> R -> R).
Hypothesis Ha : forall t, is_derive a t (da t) /\ continuous da t.
Hypothesis Hb : forall t, is_derive b t (db t) /\ continuous db t.
Hypothesis HP : c1 psi fx ft.
Let X z w := a w + (z + 1) / 2 * (b w - a w).
Let Xt z w := da w + (z + 1) / 2 * (db w - da w).

Lemma X_dt z t : is_derive (X z) t (Xt z t).
Proof. apply dd_plus; [apply Ha|]. apply dd_scal. apply dd_minus; [apply Hb|apply Ha]. Qed.
Lemma ca t : continuous a t. Proof. apply (cont_of_derive a da). intros; apply Ha. Qed.
Lemma cb t : continuous b t. Proof. apply (cont_of_derive b db). intros; apply Hb. Qed.
Let K (w z : R) := Xt z w * fx (X z w) w + ft (X z w) w.
Lemma K_cont t z : continuity_2d_pt K t z.
Proof.
  apply c2_cont. unfold K.
  assert (Cw : continuous (fun p : R * R => fst p) (t, z)) by apply continuous_fst.
  assert (Cz : continuous (fun p : R * R => snd p) (t, z)) by apply continuous_snd.
  assert (Cf : forall g : R -> R, continuous g t -> continuous (fun p : R * R => g (fst p)) (t, z)) by (intros g Hg; apply (continuous_comp (fun p : R * R => fst p) g); auto).
  assert (Chalf : continuous (fun p : R * R => (snd p + 1) / 2) (t, z)).
  { apply (continuous_comp (fun p : R * R => snd p) (fun y => (y + 1) / 2)); auto. cbn. auto with cont. }
  assert (CX : continuous (fun p : R * R => X (snd p) (fst p)) (t, z)).
  { unfold X. apply (continuous_plus (fun p : R * R => a (fst p)) (fun p => (snd p + 1) / 2 * (b (fst p) - a (fst p)))); [apply Cf, ca|].
    apply (continuous_mult (fun p : R * R => (snd p + 1) / 2) (fun p => b (fst p) - a (fst p))); auto.
    apply (continuous_minus (fun p : R * R => b (fst p)) (fun p => a (fst p))); apply Cf; [apply cb|apply ca]. }
  assert (CXt : continuous (fun p : R * R => Xt (snd p) (fst p)) (t, z)).
  { unfold Xt. apply (continuous_plus (fun p : R * R => da (fst p)) (fun p => (snd p + 1) / 2 * (db (fst p) - da (fst p)))); [apply Cf, Ha|].
    apply (continuous_mult (fun p : R * R => (snd p + 1) / 2) (fun p => db (fst p) - da (fst p))); auto.
    apply (continuous_minus (fun p : R * R => db (fst p)) (fun p => da (fst p))); apply Cf; [apply Hb|apply Ha]. }
  apply (continuous_plus (fun p : R * R => Xt (snd p) (fst p) * fx (X (snd p) (fst p)) (fst p)) (fun p => ft (X (snd p) (fst p)) (fst p))).
  - apply (continuous_mult (fun p : R * R => Xt (snd p) (fst p)) (fun p => fx (X (snd p) (fst p)) (fst p))); auto.
    apply (continuous_comp_2 (fun p : R * R => X (snd p) (fst p)) (fun p => fst p) fx); auto. apply c2_cont, HP.
  - apply (continuous_comp_2 (fun p : R * R => X (snd p) (fst p)) (fun p => fst p) ft); auto. apply c2_cont, HP.
Qed.
Lemma psiX_cont t z : continuous (fun z => psi (X z t) t) z.
Proof. apply (ccomp (fun y => psi y t) (fun z => X z t)); [unfold X; auto with cont|]. apply (c1_cont psi fx ft), HP. Qed.
Lemma K_z t z : continuous (fun z => K t z) z.
Proof.
  pose proof (K_cont t z) as C. apply c2_cont in C.
  apply (continuous_comp_2 (fun _ : R => t) (fun y : R => y) K z); [apply cconst|apply cid|exact C].
Qed.
(** the reference integral *)
Definition J i t := RInt (fun z => psi (X z t) t * leg i z) (-1) 1.
Lemma J_dt i t : is_derive (J i) t (RInt (fun z => K t z * leg i z) (-1) 1).
Proof.
  assert (DD : forall w z, is_derive (fun w => psi (X z w) w * leg i z) w (K w z * leg i z)).
  { intros w z. apply dd_scal_r. unfold K. apply (chain2 psi fx ft (X z) w (Xt z w)); auto. apply X_dt. }
  eapply dd_eq.
  - unfold J. apply (is_derive_RInt_param (fun w z => psi (X z w) w * leg i z) (-1) 1 t).
    + apply filter_forall. intros w z _. eexists. apply DD.
    + intros z _. apply (continuity_2d_pt_ext (fun w z => K w z * leg i z)).
      * intros u v. symmetry. apply is_derive_unique. apply DD.
      * apply c2_cont. apply (continuous_mult (fun p : R * R => K (fst p) (snd p)) (fun p => leg i (snd p))).
        -- apply c2_cont, K_cont.
        -- apply (continuous_comp (fun p : R * R => snd p) (leg i)); [apply continuous_snd|apply leg_cont].
    + apply filter_forall. intros w. apply ex_int. intros z. apply cmult; [apply psiX_cont|apply leg_cont].
  - apply RInt_ext. intros z _. apply is_derive_unique. apply DD.
Qed.
Lemma refz_X t z : a t < b t -> X (refz z (a t) (b t)) t = z.
Proof. intros. unfold X, refz. field. lra. Qed.
Lemma p_ref i t : a t < b t -> is_RInt (fun x => psi x t * basis Slab i x (a t) (b t)) (a t) (b t)
   ((b t - a t) / 2 * sqrt ((2 * INR i + 1) / (b t - a t)) * J i t).
Proof.
  intros H. apply (int_ext (fun x => sqrt ((2 * INR i + 1) / (b t - a t)) * (psi (X (refz x (a t) (b t)) t) t * leg i (refz x (a t) (b t))))).
  { intros x. rewrite refz_X by auto. unfold basis. ring. }
  eapply int_eq; [apply int_scal, (int_ref (fun z => psi (X z t) t * leg i z)); [auto|]; unfold J; apply int_val; intros z; apply cmult; [apply psiX_cont|apply leg_cont]|].
  fold (J i t). ring.
Qed.
Lemma basis_cont i x a0 b0 : a0 < b0 -> continuous (fun x => basis Slab i x a0 b0) x.
Proof. intros H. apply (ex_derive_continuous (V := R_NormedModule)). eexists. apply basis_dx; auto. Qed.
Lemma dxbasis_cont i x a0 b0 : a0 < b0 -> continuous (fun x => sqrt ((2 * INR i + 1) / (b0 - a0)) * (2 / (b0 - a0) * dleg i (refz x a0 b0))) x.
Proof.
  intros H. apply cmult; [apply cconst|]. apply cmult; [apply cconst|]. apply (ccomp (dleg i) (fun x => refz x a0 b0)); [|apply dleg_cont].
  apply (ex_derive_continuous (V := R_NormedModule)). eexists. apply refz_derive; auto.
Qed.
(** Leibniz: what is inside changes, the ends move, the test function moves. *)
Lemma leibniz i t : a t < b t -> exists I1 I2,
  is_RInt (fun x => ft x t * basis Slab i x (a t) (b t)) (a t) (b t) I1 /\
  is_RInt (fun x => psi x t * Derive (fun w => basis Slab i x (a w) (b w)) t) (a t) (b t) I2 /\
  is_derive (fun w => RInt (fun x => psi x w * basis Slab i x (a w) (b w)) (a w) (b w)) t
    (I1 + I2 + db t * psi (b t) t * basis Slab i (b t) (a t) (b t) - da t * psi (a t) t * basis Slab i (a t) (a t) (b t)).
Proof.
  intros H. set (h := b t - a t). assert (Hh : 0 < h) by (unfold h; lra). set (k := sqrt ((2 * INR i + 1) / h)).
  set (B := fun x => basis Slab i x (a t) (b t)). set (Bx := fun x => k * (2 / h * dleg i (refz x (a t) (b t)))).
  set (W := fun x => Xt (refz x (a t) (b t)) t).
  assert (CB : forall x, continuous B x) by (intros x; apply basis_cont; auto).
  assert (CBx : forall x, continuous Bx x) by (intros x; apply dxbasis_cont; auto).
  assert (DW : forall x, is_derive W x ((db t - da t) / h)).
  { intros x. unfold W, Xt. eapply dd_eq; [apply dd_plus; [apply dd_const|]; apply dd_scal_r; apply dd_divc; apply dd_plus; [apply refz_derive; auto|apply dd_const]|]. fold h. field. lra. }
  assert (CW : forall x, continuous W x) by (intros x; apply (cont_of_derive W (fun _ => (db t - da t) / h)); auto).
  assert (Cp : forall x, continuous (fun x => psi x t) x) by (intros x; apply (c1_cont psi fx ft), HP).
  assert (Cfx : forall x, continuous (fun x => fx x t) x) by (intros x; apply cont_x, HP).
  assert (Cft : forall x, continuous (fun x => ft x t) x) by (intros x; apply cont_x, HP).
  assert (Bt : forall x, Derive (fun w => basis Slab i x (a w) (b w)) t = - (1 / 2) * ((db t - da t) / h) * B x - W x * Bx x).
  { intros x. erewrite (is_derive_unique (fun w : R => basis Slab i x (a w) (b w)) t) by (apply basis_dt; [apply Ha|apply Hb|auto]).
    unfold B, W, Bx, Xt, basis. fold h k. field. lra. }
  exists (RInt (fun x => ft x t * B x) (a t) (b t)), (RInt (fun x => psi x t * (- (1 / 2) * ((db t - da t) / h) * B x - W x * Bx x)) (a t) (b t)).
  split; [apply int_val; auto with cont|]. split.
  { apply (int_ext (fun x => psi x t * (- (1 / 2) * ((db t - da t) / h) * B x - W x * Bx x))); [intros x; now rewrite Bt|]. apply int_val. auto 8 with cont. }
  apply (dd_loc (fun w => (b w - a w) / 2 * sqrt ((2 * INR i + 1) / (b w - a w)) * J i w)).
  { generalize (locally_lt a b t (da t) (db t) (proj1 (Ha t)) (proj1 (Hb t)) H). apply filter_imp. intros w Hw. symmetry. apply int_uniq, p_ref. exact Hw. }
  eapply dd_eq.
  { apply (dd_mult (fun w => (b w - a w) / 2 * sqrt ((2 * INR i + 1) / (b w - a w))) (J i)); [|apply J_dt].
    apply (dd_mult (fun w => (b w - a w) / 2) (fun w => sqrt ((2 * INR i + 1) / (b w - a w)))); [apply dd_divc; apply (h_derive a b t (da t) (db t)); [apply Ha|apply Hb]|].
    apply coef_dt; [apply Ha|apply Hb|auto]. }
  fold h k.
  (* the integrals in x *)
  assert (IP : is_RInt (fun x => psi x t * B x) (a t) (b t) (h / 2 * k * J i t)) by (apply p_ref; auto).
  assert (IK : is_RInt (fun x => (W x * fx x t + ft x t) * B x) (a t) (b t) (h / 2 * k * RInt (fun z => K t z * leg i z) (-1) 1)).
  { apply (int_ext (fun x => k * (K t (refz x (a t) (b t)) * leg i (refz x (a t) (b t))))).
    { intros x. unfold K. rewrite refz_X by auto. unfold B, basis. fold h k. fold (W x). ring. }
    eapply int_eq; [apply int_scal, (int_ref (fun z => K t z * leg i z)); [auto|]; apply int_val; intros z; apply cmult; [apply K_z|apply leg_cont]|]. fold h. ring. }
  assert (IF : is_RInt (fun x => fx x t * (W x * B x) + psi x t * ((db t - da t) / h * B x + W x * Bx x)) (a t) (b t)
                 (psi (b t) t * (W (b t) * B (b t)) - psi (a t) t * (W (a t) * B (a t)))).
  { apply (int_ftc (fun x => psi x t * (W x * B x))).
    - intros x. apply (dd_mult (fun x => psi x t) (fun x => W x * B x)); [apply HP|]. apply (dd_mult W B); [apply DW|]. apply basis_dx; auto.
    - intros x. auto 8 with cont. }
  assert (Wb : W (b t) = db t) by (unfold W, Xt, refz; field; lra).
  assert (Wa : W (a t) = da t) by (unfold W, Xt, refz; field; lra).
  rewrite Wa, Wb in IF.
  assert (I1v : is_RInt (fun x => ft x t * B x) (a t) (b t) (RInt (fun x => ft x t * B x) (a t) (b t))) by (apply int_val; auto with cont).
  assert (I2v : is_RInt (fun x => psi x t * (- (1 / 2) * ((db t - da t) / h) * B x - W x * Bx x)) (a t) (b t) (RInt (fun x => psi x t * (- (1 / 2) * ((db t - da t) / h) * B x - W x * Bx x)) (a t) (b t))) by (apply int_val; auto 8 with cont).
  assert (S1 := int_plus _ _ _ _ _ _ (int_plus _ _ _ _ _ _ I1v I2v) (int_plus _ _ _ _ _ _ IF (int_scal _ (- (1 / 2) * ((db t - da t) / h)) _ _ _ IP))).
  assert (S2 : h / 2 * k * RInt (fun z => K t z * leg i z) (-1) 1 = RInt (fun x => ft x t * B x) (a t) (b t) + RInt (fun x => psi x t * (- (1 / 2) * ((db t - da t) / h) * B x - W x * Bx x)) (a t) (b t) +
       (psi (b t) t * (db t * B (b t)) - psi (a t) t * (da t * B (a t)) + - (1 / 2) * ((db t - da t) / h) * (h / 2 * k * J i t))).
  { apply (int_uniq2 _ _ _ _ _ IK). eapply int_ext; [|exact S1]. intros x. cbv beta. field. lra. }
  fold (B (a t)) (B (b t)).
  transitivity (1 / 2 * ((db t - da t) / h) * (h / 2 * k * J i t) + h / 2 * k * RInt (fun z => K t z * leg i z) (-1) 1); [field; lra|].
  rewrite S2. field. lra.
Qed.
End Leib.
