(** Projections: polynomials are reproduced; the projected exact solution solves the scheme up to face defects. *)
From Coquelicot Require Import Coquelicot.
From Verif Require Import Py PyLemmas Calc Legendre Cheb DGModel DGSpec DGProofs DGInt DGBalance DGFinal FuncLobatto StabSpec StabProofs ErrSpec ErrLeib.

(** ** Polynomials are combinations of Legendre polynomials *)
Lemma x_leg n z : z * leg n z = (INR n + 1) / (2 * INR n + 1) * leg (S n) z + INR n / (2 * INR n + 1) * leg (n - 1) z.
Proof.
  destruct n as [|n]; [cbn [INR]; rewrite leg_0, leg_1; field|].
  replace (S n - 1)%nat with n by lia. pose proof (pos_INR n). rewrite leg_SS, S_INR. field. lra.
Qed.
Definition span (m : nat) (v : R -> R) : Prop := exists u : nat -> R, forall z, v z = sumn m (fun j => u j * leg j z).
Lemma span_ext m u v : (forall z, u z = v z) -> span m u -> span m v.
Proof. intros E (w & H). exists w. intros z. now rewrite <- E. Qed.
Lemma span_lin m u v p q : span m u -> span m v -> span m (fun z => p * u z + q * v z).
Proof.
  intros (a & A) (b & B). exists (fun j => p * a j + q * b j). intros z. rewrite A, B, <- !sumn_scal, <- sumn_plus. apply sumn_ext. intros; ring.
Qed.
Lemma span_zero m : span m (fun _ => 0).
Proof. exists (fun _ => 0). intros z. symmetry. rewrite (sumn_ext _ _ (fun _ => 0 * 0)) by (intros; ring). rewrite sumn_scal. ring. Qed.
Lemma span_leg m j : (j < m)%nat -> span m (leg j).
Proof.
  intros H. exists (fun i => if (i =? j)%nat then 1 else 0). intros z. symmetry.
  rewrite (sumn_single _ _ j); [rewrite Nat.eqb_refl; ring|exact H|]. intros i _ N. apply Nat.eqb_neq in N. rewrite N. ring.
Qed.
Lemma span_sumn m n (v : nat -> R -> R) : (forall i, (i < n)%nat -> span m (v i)) -> span m (fun z => sumn n (fun i => v i z)).
Proof.
  induction n as [|n IH]; intros H; cbn [sumn]; [apply span_zero|].
  apply (span_ext m (fun z => 1 * sumn n (fun i => v i z) + 1 * v n z)); [intros; ring|]. apply span_lin; auto.
Qed.
Lemma span_x m v : span m v -> span (S m) (fun z => z * v z).
Proof.
  intros (u & H). apply (span_ext (S m) (fun z => sumn m (fun j => z * (u j * leg j z)))); [intros z; now rewrite H, <- sumn_scal|].
  apply span_sumn. intros j Hj.
  apply (span_ext (S m) (fun z => u j * ((INR j + 1) / (2 * INR j + 1)) * leg (S j) z + u j * (INR j / (2 * INR j + 1)) * leg (j - 1) z)).
  - intros z. transitivity (u j * (z * leg j z)); [rewrite x_leg; ring|ring].
  - apply span_lin; apply span_leg; lia.
Qed.
Lemma deg_span m v : deg_le m v -> span (m + 1) v.
Proof.
  intros (l & L & H). apply (span_ext _ (ph l)); [intros; now rewrite H|]. clear v H.
  assert (G : forall l m, (length l <= m)%nat -> span m (ph l)).
  { clear. induction l as [|c l IH]; intros m L.
    - apply (span_ext _ (fun _ => 0)); [reflexivity|apply span_zero].
    - destruct m as [|m]; [cbn in L; lia|]. cbn in L.
      apply (span_ext _ (fun z => c * leg 0 z + 1 * (z * ph l z))); [intros z; rewrite leg_0; change (ph (c :: l) z) with (c + z * ph l z); ring|].
      apply span_lin; [apply span_leg; lia|]. apply span_x, IH. lia. }
  apply G. lia.
Qed.
Lemma deg_affine d v p q : deg_le d v -> deg_le d (fun z => v (p * z + q)).
Proof.
  intros (l & L & H). apply (deg_ext d (fun z => ph l (p * z + q))); [intros; now rewrite H|]. clear v H.
  revert d L. induction l as [|c l IH]; intros d L.
  - apply (deg_ext d (fun _ => 0)); [reflexivity|apply deg_const].
  - cbn [length] in L. destruct l as [|c' l'].
    + apply (deg_ext d (fun _ => c)); [intros; cbn; ring|apply deg_const].
    + destruct d as [|d]; [cbn in L; lia|]. remember (c' :: l') as l eqn:El. clear El c' l'.
      apply (deg_ext (S d) (fun z => 1 * c + 1 * (p * (z * ph l (p * z + q)) + q * ph l (p * z + q)))); [intros z; change (ph (c :: l) (p * z + q)) with (c + (p * z + q) * ph l (p * z + q)); ring|].
      apply deg_lin; [apply deg_const|]. apply deg_lin; [apply deg_x, IH; cbn in L; lia|]. apply (deg_mono d); [lia|]. apply IH. cbn in L; lia.
Qed.
Lemma deg_dleg n : deg_le (n - 1) (dleg n).
Proof.
  assert (G : forall n, deg_le (n - 1) (dleg n) /\ deg_le n (dleg (S n))).
  { clear n. induction n as [|n [I1 I2]].
    - split; [apply (deg_ext _ (fun _ => 0)); [intro; now rewrite dleg_0|apply deg_const]|apply (deg_ext _ (fun _ => 1)); [intro; now rewrite dleg_1|apply deg_const]].
    - replace (S n - 1)%nat with n by lia. split; auto.
      apply (deg_ext _ (fun z => 1 * dleg n z + (2 * INR n + 3) * leg (S n) z)); [intro; rewrite dleg_SS; ring|].
      apply deg_lin; [apply (deg_mono (n - 1)); [lia|auto]|apply deg_leg]. }
  apply G.
Qed.
Lemma deg_xdleg n : deg_le n (fun z => z * dleg n z).
Proof.
  destruct n as [|n]; [apply (deg_ext _ (fun _ => 0)); [intro; rewrite dleg_0; ring|apply deg_const]|].
  apply deg_x. pose proof (deg_dleg (S n)) as H. now replace (S n - 1)%nat with n in H by lia.
Qed.

(** ** Reproduction *)
(** a polynomial of degree at most M in the reference coordinate is an expansion *)
Lemma span_field M q a b : a < b -> deg_le M q -> exists u, forall x, q (refz x a b) = field Slab M u a b x.
Proof.
  intros H D. destruct (deg_span M q D) as (u & Hu). exists (fun j => u j / sqrt ((2 * INR j + 1) / (b - a))).
  intros x. rewrite Hu. apply sumn_ext. intros j _. unfold basis.
  assert (0 < sqrt ((2 * INR j + 1) / (b - a))) by (apply sqrt_lt_R0, Rdiv_lt_0_compat; [pose proof (INR2_pos j); lra|lra]). field. lra.
Qed.
(** tested against anything, such a polynomial acts through its own coefficients *)
Lemma test_poly M q a b (f : R -> R) : a < b -> deg_le M q -> (forall x, continuous f x) ->
  is_RInt (fun x => q (refz x a b) * f x) a b
    (sumn (M + 1) (fun j => RInt (fun x => q (refz x a b) * basis Slab j x a b) a b * RInt (fun x => f x * basis Slab j x a b) a b)).
Proof.
  intros H D C. destruct (span_field M q a b H D) as (u & Hu).
  apply (int_ext (fun x => sumn (M + 1) (fun j => u j * (f x * basis Slab j x a b)))).
  { intros x. rewrite Hu. unfold field. rewrite <- sumn_scal_r. apply sumn_ext. intros; ring. }
  apply (int_sumn (M + 1) (fun j x => u j * (f x * basis Slab j x a b))). intros j Hj.
  replace (RInt (fun x => q (refz x a b) * basis Slab j x a b) a b) with (u j).
  - apply int_scal. apply int_val. intros x. apply cmult; [apply C|apply basis_cont; auto].
  - symmetry. apply int_uniq. apply (int_ext (fun x => field Slab M u a b x * basis Slab j x a b)); [intros x; now rewrite Hu|]. apply project_field; [auto|lia].
Qed.
Lemma stiff_test M i a b f : a < b -> (i <= M)%nat -> (forall x, continuous f x) ->
  is_RInt (fun x => Derive (fun y => basis Slab i y a b) x * f x) a b (sumn (M + 1) (fun j => L_slab a b i j * RInt (fun x => f x * basis Slab j x a b) a b)).
Proof.
  intros H Hi C. set (q := fun z => sqrt ((2 * INR i + 1) / (b - a)) * (2 / (b - a)) * dleg i z + 0 * dleg i z).
  assert (Q : forall x, Derive (fun y => basis Slab i y a b) x = q (refz x a b)).
  { intros x. unfold q. rewrite (is_derive_unique (fun y : R => basis Slab i y a b) x _ (basis_dx i x a b H)). ring. }
  apply (int_ext (fun x => q (refz x a b) * f x)); [intros x; now rewrite Q|].
  eapply int_eq; [apply (test_poly M q a b f H); [|exact C]|].
  - apply deg_lin; apply (deg_mono (i - 1)); try lia; apply deg_dleg.
  - apply sumn_ext. intros j _. f_equal. apply int_uniq.
    apply (int_ext (fun x => Derive (fun y => basis Slab i y a b) x * basis Slab j x a b)); [intros x; now rewrite Q|]. now apply stiffness.
Qed.
Lemma motion_test M i (a b : R -> R) t a' b' f : a t < b t -> is_derive a t a' -> is_derive b t b' -> (i <= M)%nat -> (forall x, continuous f x) ->
  is_RInt (fun x => Derive (fun s => basis Slab i x (a s) (b s)) t * f x) (a t) (b t)
    (sumn (M + 1) (fun j => G_slab (a t) (b t) a' b' i j * RInt (fun x => f x * basis Slab j x (a t) (b t)) (a t) (b t))).
Proof.
  intros H Ha Hb Hi C. set (h := b t - a t). set (k := sqrt ((2 * INR i + 1) / h)).
  set (q := fun z => (k * (- (1 / 2) * ((b' - a') / h))) * leg i z + k * ((- (a' + b') / h) * dleg i z + (- ((b' - a') / h)) * (z * dleg i z))).
  assert (Q : forall x, Derive (fun s => basis Slab i x (a s) (b s)) t = q (refz x (a t) (b t))).
  { intros x. unfold q. rewrite (is_derive_unique (fun s : R => basis Slab i x (a s) (b s)) t _ (basis_dt a b t a' b' Ha Hb H i x)). fold h k. ring. }
  apply (int_ext (fun x => q (refz x (a t) (b t)) * f x)); [intros x; now rewrite Q|].
  eapply int_eq; [apply (test_poly M q (a t) (b t) f H); [|exact C]|].
  - apply deg_lin; [apply (deg_mono i); [lia|apply deg_leg]|]. apply deg_lin; [apply (deg_mono (i - 1)); [lia|apply deg_dleg]|apply (deg_mono i); [lia|apply deg_xdleg]].
  - apply sumn_ext. intros j _. f_equal. apply int_uniq.
    apply (int_ext (fun x => Derive (fun s => basis Slab i x (a s) (b s)) t * basis Slab j x (a t) (b t))); [intros x; now rewrite Q|]. now apply motion.
Qed.

Lemma fin_choice (T : Type) n (R : nat -> T -> Prop) : (exists d : T, True) -> (forall i, (i < n)%nat -> exists v, R i v) -> exists g, forall i, (i < n)%nat -> R i (g i).
Proof.
  intros (d & _). induction n as [|n IH]; intros H; [exists (fun _ => d); intros; lia|].
  destruct IH as (g & G); [intros; apply H; lia|]. destruct (H n) as (v & Hv); [lia|].
  exists (fun i => if (i =? n)%nat then v else g i). intros i Hi. destruct (Nat.eqb_spec i n) as [->|N]; [exact Hv|apply G; lia].
Qed.

Lemma int_ext_on (f g : R -> R) a b l : a <= b -> (forall x, a < x < b -> f x = g x) -> is_RInt f a b l -> is_RInt g a b l.
Proof. intros Hab H. apply is_RInt_ext. intros x Hx. rewrite Rmin_left, Rmax_right in Hx by lra. now apply H. Qed.

(** ** The projected exact solution *)
Section Consist.
Variables (c : flux_cfg) (E D : nat -> R -> R) (N_ang : nat) (ws mus : nat -> R) (cc : R)
  (Q : nat -> R -> R -> R) (psi : nat -> nat -> R -> R -> R) (t0 t1 : R).
Hypothesis Hg : fgeom c = Slab.
Hypothesis HN : (2 <= fN c)%nat.
Hypothesis HM : mesh_c1 c E D.
Hypothesis HX : exact c E D N_ang ws mus cc Q psi t0 t1.
Variable t : R.
Hypothesis Ht : t0 <= t <= t1.
Hypothesis He : increasing (fN c) (fun k => E k t).
Notation e := (fun k => E k t).
Notation Dt := (fun k => D k t).
Notation P := (fun (a s j : nat) => pcoef E (psi a s) s j t).

Lemma pcoef_int a s i : (a < N_ang)%nat -> (s < fN c)%nat ->
  is_RInt (fun x => psi a s x t * basis Slab i x (E s t) (E (S s) t)) (E s t) (E (S s) t) (pcoef E (psi a s) s i t).
Proof.
  intros Ha Hs. destruct (ex_eq _ _ _ _ _ _ _ _ _ _ _ HX a s Ha Hs) as (fx & ft & C & _).
  apply int_val. intros x. apply cmult; [apply (c1_cont _ _ _ _ _ C)|apply basis_cont, (He s Hs)].
Qed.
Lemma right_trace a s : (a < N_ang)%nat -> (s < fN c)%nat ->
  (mus a - D (S s) t) * psi a s (E (S s) t) t = (mus a - D (S s) t) * trace c E psi a (S s) t.
Proof.
  intros Ha Hs. unfold trace. destruct (Nat.ltb_spec (S s) (fN c)) as [L|L].
  - pose proof (ex_match _ _ _ _ _ _ _ _ _ _ _ HX a s t Ha L Ht). lra.
  - now replace (S s - 1)%nat with s by lia.
Qed.
Lemma left_trace a s : (s < fN c)%nat -> psi a s (E s t) t = trace c E psi a s t.
Proof. intros Hs. unfold trace. destruct (Nat.ltb_spec s (fN c)); [reflexivity|lia]. Qed.

Lemma consistency st d a s i : (a < N_ang)%nat -> (s < fN c)%nat -> (i <= fM c)%nat -> defects c E D N_ang mus psi t d ->
  is_derive (pcoef E (psi a s) s i) t
    (slab_rhs c st N_ang ws mus cc t e Dt (fun j => pcoef E (Q s) s j t) P a s i
     + basis Slab i (E (S s) t) (E s t) (E (S s) t) * ((mus a - D (S s) t) * d a (S s))
     - basis Slab i (E s t) (E s t) (E (S s) t) * ((mus a - D s t) * d a s)).
Proof.
  intros Ha Hs Hi Hd. assert (Hlt := He s Hs). cbv beta in Hlt.
  destruct (ex_eq _ _ _ _ _ _ _ _ _ _ _ HX a s Ha Hs) as (fx & ft & C & EQ). specialize (EQ t).
  destruct (leibniz (E s) (E (S s)) (D s) (D (S s)) (psi a s) fx ft (HM s ltac:(lia)) (HM (S s) ltac:(lia)) C i t Hlt) as (I1 & I2 & J1 & J2 & Dp).
  set (A := E s t) in *. set (B := E (S s) t) in *.
  assert (Cp : forall x, continuous (fun x => psi a s x t) x) by (intros x; apply (c1_cont _ _ _ _ _ C)).
  assert (Cfx : forall x, continuous (fun x => fx x t) x) by (intros x; apply cont_x, C).
  assert (CB : forall x, continuous (fun x => basis Slab i x A B) x) by (intros; apply basis_cont; auto).
  (* I2 *)
  assert (V2 : I2 = dotv (fM c + 1) (G_slab A B (D s t) (D (S s) t)) (fun j => pcoef E (psi a s) s j t) i).
  { apply (int_uniq2 _ _ _ _ _ J2). eapply int_ext; [|apply (motion_test (fM c) i (E s) (E (S s)) t (D s t) (D (S s) t) (fun x => psi a s x t)); auto; apply HM; lia].
    intros x. cbv beta. ring. }
  (* I1 *)
  assert (JL := stiff_test (fM c) i A B (fun x => psi a s x t) Hlt Hi Cp).
  set (Iv := sumn (fM c + 1) _) in JL.
  assert (VL : Iv = dotv (fM c + 1) (L_slab A B) (fun j => pcoef E (psi a s) s j t) i) by reflexivity.
  assert (JF : is_RInt (fun x => fx x t * basis Slab i x A B + psi a s x t * Derive (fun y => basis Slab i y A B) x) A B
                  (psi a s B t * basis Slab i B A B - psi a s A t * basis Slab i A A B)).
  { apply (int_ftc (fun x => psi a s x t * basis Slab i x A B)).
    - intros x. apply (dd_mult (fun x => psi a s x t) (fun x => basis Slab i x A B)); [apply C|]. apply Derive_correct. eexists. apply basis_dx; auto.
    - intros x. apply cplus; [apply cmult; auto|]. apply cmult; auto.
      apply (continuous_ext (fun x => sqrt ((2 * INR i + 1) / (B - A)) * (2 / (B - A) * dleg i (refz x A B)))); [|apply dxbasis_cont; auto].
      intros y. symmetry. apply is_derive_unique. apply basis_dx; auto. }
  assert (JP := pcoef_int a s i Ha Hs). fold A B in JP.
  assert (JS : is_RInt (fun x => sumn N_ang (fun l => ws l * psi l s x t) * basis Slab i x A B) A B (make_P N_ang ws (fun l j => P l s j) i)).
  { apply (int_ext (fun x => sumn N_ang (fun l => ws l * (psi l s x t * basis Slab i x A B)))).
    { intros x. rewrite <- sumn_scal_r. apply sumn_ext. intros; ring. }
    unfold make_P. rewrite (sumn_ext _ (fun l => P l s i * ws l) (fun l => ws l * P l s i)) by (intros; ring).
    apply (int_sumn N_ang (fun l x => ws l * (psi l s x t * basis Slab i x A B))). intros l Hl. apply int_scal, pcoef_int; auto. }
  assert (JQ0 := int_plus _ _ _ _ _ _ (int_minus _ _ _ _ _ _ (int_plus _ _ _ _ _ _ J1 (int_scal _ (mus a) _ _ _ (int_minus _ _ _ _ _ _ JF JL))) (int_scal _ cc _ _ _ JS)) JP).
  assert (JQ : is_RInt (fun x => Q s x t * basis Slab i x A B) A B (pcoef E (Q s) s i t)).
  { unfold pcoef. fold A B. apply (RInt_correct (V := R_CompleteNormedModule)). eexists.
    eapply int_ext_on; [lra| |apply (int_scal _ 2 _ _ _ JQ0)]. intros x Hx.
    cbv beta. replace (Q s x t) with (2 * (ft x t + mus a * fx x t + psi a s x t - cc * sumn N_ang (fun l => ws l * psi l s x t))) by (rewrite EQ by lra; field).
    ring. }
  assert (V1 : I1 = - mus a * (psi a s B t * basis Slab i B A B - psi a s A t * basis Slab i A A B) + mus a * Iv + cc * make_P N_ang ws (fun l j => P l s j) i - pcoef E (psi a s) s i t + 1 / 2 * pcoef E (Q s) s i t).
  { assert (X : I1 + mus a * (psi a s B t * basis Slab i B A B - psi a s A t * basis Slab i A A B - Iv) - cc * make_P N_ang ws (fun l j => P l s j) i + pcoef E (psi a s) s i t = 1 / 2 * pcoef E (Q s) s i t); [|lra].
    apply (int_uniq2 _ _ _ _ _ JQ0). eapply int_ext_on; [lra| |apply (int_scal _ (1 / 2) _ _ _ JQ)].
    intros x Hx. cbv beta.
    replace (1 / 2 * (Q s x t * basis Slab i x A B)) with ((1 / 2 * Q s x t) * basis Slab i x A B) by ring.
    replace (1 / 2 * Q s x t) with (ft x t + mus a * fx x t + psi a s x t - cc * sumn N_ang (fun l => ws l * psi l s x t)) by (rewrite EQ by lra; field). ring. }
  eapply dd_eq; [exact Dp|]. rewrite slab_rhs_core. unfold core.
  destruct (LU_formula c t e Dt (P a) (mus a) (fun _ => 0) HN He st s i Hs) as (vl & vr & F1 & F2 & ->).
  rewrite (face_fun c t e Dt (P a) (mus a) (fun _ => 0) HN He s vl _ F1 (Hd a s Ha ltac:(lia))).
  rewrite (face_fun c t e Dt (P a) (mus a) (fun _ => 0) HN He (S s) vr _ F2 (Hd a (S s) Ha ltac:(lia))).
  rewrite Hg. cbn [wt]. fold A B. rewrite V1, V2, VL.
  pose proof (right_trace a s Ha Hs) as TR. pose proof (left_trace a s Hs) as TL. fold A B in TR, TL. rewrite TL.
  set (pr := psi a s B t) in *. set (tr := trace c E psi a (S s) t) in *.
  assert (TR' : D (S s) t * pr = mus a * pr - (mus a - D (S s) t) * tr) by lra.
  replace (D (S s) t * pr * basis Slab i B A B) with ((mus a * pr - (mus a - D (S s) t) * tr) * basis Slab i B A B) by (rewrite <- TR'; ring).
  ring.
Qed.

Lemma defects_exist : exists d, defects c E D N_ang mus psi t d.
Proof.
  destruct (fin_choice _ N_ang (fun a (g : nat -> R) => forall f, (f < S (fN c))%nat -> face c t e Dt (P a) (mus a) (fun _ => 0) f (g f))) as (g & G).
  { now exists (fun _ => 0). }
  { intros a _. apply (fin_choice _ (S (fN c)) (fun f v => face c t e Dt (P a) (mus a) (fun _ => 0) f v)); [now exists 0|]. intros f Hf.
    apply (face_exists c t e Dt (P a) (mus a) (fun _ => 0) HN He f). lia. }
  exists (fun a f => g a f - trace c E psi a f t). intros a f Ha Hf.
  replace (g a f - trace c E psi a f t + trace c E psi a f t) with (g a f) by ring. apply G; [auto|lia].
Qed.
End Consist.
