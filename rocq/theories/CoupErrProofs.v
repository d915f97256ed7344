(** Projections of exact solutions of the coupled equations, and the rate of the error. *)
From Coq Require Import FunctionalExtensionality.
From Coquelicot Require Import Coquelicot.
From Verif Require Import Py PyLemmas Calc Legendre Cheb DGModel DGSpec DGProofs DGInt DGBalance DGFinal FuncLobatto StabSpec StabProofs SymSpec DepProofs ErrSpec ErrLeib ErrProofs ErrEnergy ErrApprox CoupErrSpec.

Lemma with_mat_lt {T} A (f : nat -> T) m a : (a < A)%nat -> with_mat A f m a = f a.
Proof. intros H. unfold with_mat. destruct (Nat.eqb_spec a A); [lia|auto]. Qed.
Lemma with_mat_A {T} A (f : nat -> T) m : with_mat A f m A = m.
Proof. unfold with_mat. now rewrite Nat.eqb_refl. Qed.

(** ** One field carried with speed mu *)
Section One.
Variables (c : flux_cfg) (E D : nat -> R -> R) (mu : R) (f g : nat -> R -> R -> R) (t0 t1 : R).
Hypothesis Hg : fgeom c = Slab.
Hypothesis HN : (2 <= fN c)%nat.
Hypothesis HM : mesh_c1 c E D.
Hypothesis Hf : forall s, (s < fN c)%nat -> exists fx ft, c1 (f s) fx ft /\ forall t x, t0 <= t <= t1 -> E s t <= x <= E (S s) t -> ft x t + mu * fx x t = g s x t.
Hypothesis Hm : forall k t, (S k < fN c)%nat -> t0 <= t <= t1 -> (mu - D (S k) t) * (f k (E (S k) t) t - f (S k) (E (S k) t) t) = 0.
Definition oneQ (s : nat) (x t : R) : R := 2 * (g s x t + f s x t).
Lemma one_exact : exact c E D 1 (fun _ => 1) (fun _ => mu) 0 oneQ (fun _ => f) t0 t1.
Proof.
  split.
  - intros a s _ Hs. destruct (Hf s Hs) as (fx & ft & C & K). exists fx, ft. split; [exact C|]. intros t x Ht Hx. unfold oneQ. cbn [sumn]. rewrite <- (K t x Ht Hx). field.
  - intros a k t _ Hk Ht. now apply Hm.
Qed.
Variable t : R.
Hypothesis Ht : t0 <= t <= t1.
Hypothesis He : increasing (fN c) (fun k => E k t).
Lemma one_int s i : (s < fN c)%nat -> is_RInt (fun x => f s x t * basis Slab i x (E s t) (E (S s) t)) (E s t) (E (S s) t) (pcoef E (f s) s i t).
Proof. intros Hs. apply (pcoef_int c E D 1 (fun _ => 1) (fun _ => mu) 0 oneQ (fun _ => f) t0 t1 one_exact t He 0%nat s i); auto. Qed.
Lemma one_g s i : (s < fN c)%nat -> is_RInt (fun x => g s x t * basis Slab i x (E s t) (E (S s) t)) (E s t) (E (S s) t) (pcoef E (g s) s i t).
Proof.
  intros Hs. destruct (Hf s Hs) as (fx & ft & C & K). assert (Hlt := He s Hs). cbv beta in Hlt.
  apply (RInt_correct (V := R_CompleteNormedModule)). eexists.
  eapply (int_ext_on (fun x => (ft x t + mu * fx x t) * basis Slab i x (E s t) (E (S s) t))); [lra| |].
  - intros x Hx. cbv beta. rewrite (K t x Ht) by lra. reflexivity.
  - apply int_val. intros x. apply cmult; [apply cplus; [apply cont_x, C|apply cmult; [apply cconst|apply cont_x, C]]|apply basis_cont; auto].
Qed.
Lemma one_consistent st d s i : (s < fN c)%nat -> (i <= fM c)%nat -> defects c E D 1 (fun _ => mu) (fun _ => f) t (fun _ => d) ->
  is_derive (pcoef E (f s) s i) t
    (core c st t (fun k => E k t) (fun k => D k t) (fun k j => pcoef E (f k) k j t) mu s i + pcoef E (g s) s i t
     + basis Slab i (E (S s) t) (E s t) (E (S s) t) * ((mu - D (S s) t) * d (S s))
     - basis Slab i (E s t) (E s t) (E (S s) t) * ((mu - D s t) * d s)).
Proof.
  intros Hs Hi Hd. eapply dd_eq; [exact (consistency c E D 1 (fun _ => 1) (fun _ => mu) 0 oneQ (fun _ => f) t0 t1 Hg HN HM one_exact t Ht He st (fun _ => d) 0%nat s i ltac:(lia) Hs Hi Hd)|].
  rewrite slab_rhs_core.
  replace (pcoef E (oneQ s) s i t) with (2 * (pcoef E (g s) s i t + pcoef E (f s) s i t)).
  2: { symmetry. apply int_uniq. apply (int_ext (fun x => 2 * (g s x t * basis Slab i x (E s t) (E (S s) t) + f s x t * basis Slab i x (E s t) (E (S s) t)))); [intros; unfold oneQ; ring|].
       apply int_scal, int_plus; [now apply one_g|now apply one_int]. }
  match goal with |- ?a = ?b => change (@eq R a b) end. field.
Qed.
End One.

(** ** The projected exact solution of the coupled equations *)
Section Consist.
Variables (c : flux_cfg) (E D : nat -> R -> R) (N_ang : nat) (ws mus : nat -> R) (cc c_a l : R)
  (Q : nat -> R -> R -> R) (psi : nat -> nat -> R -> R -> R) (mat : nat -> R -> R -> R) (t0 t1 : R).
Hypothesis Hg : fgeom c = Slab.
Hypothesis HN : (2 <= fN c)%nat.
Hypothesis HM : mesh_c1 c E D.
Hypothesis HX : exact_coupled c E D N_ang ws mus cc c_a l Q psi mat t0 t1.
Hypothesis Hl : 0 < l.
Definition radg (a s : nat) (x t : R) : R := - (psi a s x t / l) + cc / l * sumn N_ang (fun b => ws b * psi b s x t) + c_a / (2 * l) * mat s x t + (if uncollided_on c then cc else 1) / (2 * l) * Q s x t.
Definition matg (s : nat) (x t : R) : R := c_a / l * (2 * sumn N_ang (fun b => ws b * psi b s x t) - mat s x t + (if uncollided_on c then 1 else 0) * Q s x t).
Let jg := with_mat N_ang radg matg.
Let jmu := with_mat N_ang mus 0.
Let jpsi := with_mat N_ang psi mat.
Lemma joint_eq a : (a < S N_ang)%nat -> forall s, (s < fN c)%nat -> exists fx ft, c1 (jpsi a s) fx ft /\ forall t x, t0 <= t <= t1 -> E s t <= x <= E (S s) t -> ft x t + jmu a * fx x t = jg a s x t.
Proof.
  intros Ha s Hs. unfold jpsi, jmu, jg. destruct (Nat.eq_dec a N_ang) as [->|N].
  - rewrite !with_mat_A. destruct (xc_mat _ _ _ _ _ _ _ _ _ _ _ _ _ _ HX s Hs) as (fx & ft & C & K). exists fx, ft. split; [exact C|]. intros t x Ht Hx. rewrite (K t x Ht Hx). unfold matg. ring.
  - rewrite !with_mat_lt by lia. destruct (xc_rad _ _ _ _ _ _ _ _ _ _ _ _ _ _ HX a s ltac:(lia) Hs) as (fx & ft & C & K). exists fx, ft. split; [exact C|]. intros t x Ht Hx. pose proof (K t x Ht Hx). unfold radg. lra.
Qed.
Lemma joint_match a : (a < S N_ang)%nat -> forall k t, (S k < fN c)%nat -> t0 <= t <= t1 -> (jmu a - D (S k) t) * (jpsi a k (E (S k) t) t - jpsi a (S k) (E (S k) t) t) = 0.
Proof. intros Ha k t Hk Ht. exact (xc_match _ _ _ _ _ _ _ _ _ _ _ _ _ _ HX a k t Ha Hk Ht). Qed.
Variable t : R.
Hypothesis Ht : t0 <= t <= t1.
Hypothesis He : increasing (fN c) (fun k => E k t).
Lemma joint_int a s i : (a < S N_ang)%nat -> (s < fN c)%nat -> is_RInt (fun x => jpsi a s x t * basis Slab i x (E s t) (E (S s) t)) (E s t) (E (S s) t) (pcoef E (jpsi a s) s i t).
Proof. intros Ha Hs. exact (one_int c E D (jmu a) (jpsi a) (jg a) t0 t1 (joint_eq a Ha) (joint_match a Ha) t He s i Hs). Qed.
Lemma rad_int a s i : (a < N_ang)%nat -> (s < fN c)%nat -> is_RInt (fun x => psi a s x t * basis Slab i x (E s t) (E (S s) t)) (E s t) (E (S s) t) (pcoef E (psi a s) s i t).
Proof. intros Ha Hs. pose proof (joint_int a s i ltac:(lia) Hs) as K. unfold jpsi in K. now rewrite with_mat_lt in K by auto. Qed.
Lemma mat_int s i : (s < fN c)%nat -> is_RInt (fun x => mat s x t * basis Slab i x (E s t) (E (S s) t)) (E s t) (E (S s) t) (pcoef E (mat s) s i t).
Proof. intros Hs. pose proof (joint_int N_ang s i ltac:(lia) Hs) as K. unfold jpsi in K. now rewrite with_mat_A in K. Qed.
Lemma src_int s i : (s < fN c)%nat -> is_RInt (fun x => Q s x t * basis Slab i x (E s t) (E (S s) t)) (E s t) (E (S s) t) (pcoef E (Q s) s i t).
Proof. intros Hs. apply int_val. intros x. apply cmult; [apply (xc_src _ _ _ _ _ _ _ _ _ _ _ _ _ _ HX s t x Hs Ht)|apply basis_cont, (He s Hs)]. Qed.
Notation PP := (fun (a s j : nat) => pcoef E (psi a s) s j t).
Lemma flux_int s i : (s < fN c)%nat -> is_RInt (fun x => sumn N_ang (fun b => ws b * psi b s x t) * basis Slab i x (E s t) (E (S s) t)) (E s t) (E (S s) t) (make_P N_ang ws (fun l j => PP l s j) i).
Proof.
  intros Hs. apply (int_ext (fun x => sumn N_ang (fun b => ws b * (psi b s x t * basis Slab i x (E s t) (E (S s) t))))).
  { intros x. rewrite <- sumn_scal_r. apply sumn_ext. intros; ring. }
  unfold make_P. rewrite (sumn_ext _ (fun b => PP b s i * ws b) (fun b => ws b * PP b s i)) by (intros; ring).
  apply (int_sumn N_ang (fun b x => ws b * (psi b s x t * basis Slab i x (E s t) (E (S s) t)))). intros b Hb. apply int_scal, rad_int; auto.
Qed.
Lemma radg_coef a s i : (a < N_ang)%nat -> (s < fN c)%nat ->
  pcoef E (radg a s) s i t = - (PP a s i / l) + cc / l * make_P N_ang ws (fun l j => PP l s j) i + c_a / (2 * l) * pcoef E (mat s) s i t + (if uncollided_on c then cc else 1) / (2 * l) * pcoef E (Q s) s i t.
Proof.
  intros Ha Hs. apply int_uniq.
  assert (J := int_plus _ _ _ _ _ _ (int_plus _ _ _ _ _ _ (int_plus _ _ _ _ _ _ (int_scal _ (- / l) _ _ _ (rad_int a s i Ha Hs)) (int_scal _ (cc / l) _ _ _ (flux_int s i Hs)))
    (int_scal _ (c_a / (2 * l)) _ _ _ (mat_int s i Hs))) (int_scal _ ((if uncollided_on c then cc else 1) / (2 * l)) _ _ _ (src_int s i Hs))).
  eapply int_eq; [eapply int_ext; [|exact J]|].
  - intros x. cbv beta. unfold radg, Rdiv. ring.
  - unfold Rdiv. ring.
Qed.
Lemma matg_coef s i : (s < fN c)%nat ->
  pcoef E (matg s) s i t = c_a / l * (2 * make_P N_ang ws (fun l j => PP l s j) i - pcoef E (mat s) s i t + (if uncollided_on c then 1 else 0) * pcoef E (Q s) s i t).
Proof.
  intros Hs. apply int_uniq.
  assert (J := int_scal _ (c_a / l) _ _ _ (int_plus _ _ _ _ _ _ (int_minus _ _ _ _ _ _ (int_scal _ 2 _ _ _ (flux_int s i Hs)) (mat_int s i Hs)) (int_scal _ (if uncollided_on c then 1 else 0) _ _ _ (src_int s i Hs)))).
  eapply int_eq; [eapply int_ext; [|exact J]|].
  - intros x. cbv beta. unfold matg. ring.
  - reflexivity.
Qed.
Variable d : nat -> nat -> R.
Hypothesis Hd : defects c E D (S N_ang) jmu jpsi t d.
Lemma defects_one a : (a < S N_ang)%nat -> defects c E D 1 (fun _ => jmu a) (fun _ => jpsi a) t (fun _ => d a).
Proof. intros Ha b f _ Hf. exact (Hd a f Ha Hf). Qed.
Lemma rad_consistent st a s i : (a < N_ang)%nat -> (s < fN c)%nat -> (i <= fM c)%nat ->
  is_derive (pcoef E (psi a s) s i) t
    (slab_rhs_thermal c st N_ang ws mus cc c_a l t (fun k => E k t) (fun k => D k t) (fun j => pcoef E (mat s) s j t) (fun j => pcoef E (Q s) s j t) PP a s i
     + basis Slab i (E (S s) t) (E s t) (E (S s) t) * ((mus a - D (S s) t) * d a (S s))
     - basis Slab i (E s t) (E s t) (E (S s) t) * ((mus a - D s t) * d a s)).
Proof.
  intros Ha Hs Hi. assert (Ha' : (a < S N_ang)%nat) by lia.
  pose proof (one_consistent c E D (jmu a) (jpsi a) (jg a) t0 t1 Hg HN HM (joint_eq a Ha') (joint_match a Ha') t Ht He st (d a) s i Hs Hi (defects_one a Ha')) as K.
  unfold jpsi, jmu, jg in K. rewrite !with_mat_lt in K by auto. eapply dd_eq; [exact K|]. rewrite radg_coef by auto.
  unfold slab_rhs_thermal, core. cbv zeta. rewrite !Nat.add_1_r.
  match goal with |- ?a = ?b => change (@eq R a b) end.
  destruct (N_ang =? 2)%nat, (uncollided_on c); field; lra.
Qed.
Lemma mat_consistent st s i : (s < fN c)%nat -> (i <= fM c)%nat ->
  is_derive (pcoef E (mat s) s i) t
    (slab_energy c st N_ang ws c_a l t (fun k => E k t) (fun k => D k t) (fun j => pcoef E (mat s) s j t) (fun j => pcoef E (Q s) s j t) PP (fun k j => pcoef E (mat k) k j t) s i
     + basis Slab i (E (S s) t) (E s t) (E (S s) t) * ((0 - D (S s) t) * d N_ang (S s))
     - basis Slab i (E s t) (E s t) (E (S s) t) * ((0 - D s t) * d N_ang s)).
Proof.
  intros Hs Hi. assert (Ha' : (N_ang < S N_ang)%nat) by lia.
  pose proof (one_consistent c E D (jmu N_ang) (jpsi N_ang) (jg N_ang) t0 t1 Hg HN HM (joint_eq N_ang Ha') (joint_match N_ang Ha') t Ht He st (d N_ang) s i Hs Hi (defects_one N_ang Ha')) as K.
  unfold jpsi, jmu, jg in K. rewrite !with_mat_A in K. eapply dd_eq; [exact K|]. rewrite matg_coef by auto.
  unfold slab_energy, core. cbv zeta. rewrite !Nat.add_1_r.
  match goal with |- ?a = ?b => change (@eq R a b) end.
  destruct (uncollided_on c); field; lra.
Qed.
End Consist.

(** ** The rate of the error *)
Definition jumps (c : flux_cfg) (e D : nat -> R) (u : nat -> nat -> R) (mul : R) : R := sumn (S (fN c)) (fun f => Rabs (mul - D f) * (side_r c e u f - side_l c e u f) ^ 2).
Definition cross (c : flux_cfg) (e D : nat -> R) (u : nat -> nat -> R) (mul : R) (d : nat -> R) : R := sumn (S (fN c)) (fun f => (mul - D f) * d f * (side_r c e u f - side_l c e u f)).
Definition dsq (c : flux_cfg) (D : nat -> R) (mul : R) (d : nat -> R) : R := sumn (S (fN c)) (fun f => Rabs (mul - D f) * d f ^ 2).
Definition resid (e D : nat -> R) (mul : R) (d : nat -> R) (s i : nat) : R :=
  basis Slab i (e (S s)) (e s) (e (S s)) * ((mul - D (S s)) * d (S s)) - basis Slab i (e s) (e s) (e (S s)) * ((mul - D s) * d s).
Lemma young_sum c e D u mul d : - jumps c e D u mul + 2 * cross c e D u mul d <= dsq c D mul d.
Proof.
  unfold jumps, cross, dsq. rewrite <- (Rmult_1_l (sumn _ (fun f => Rabs (mul - D f) * (side_r c e u f - side_l c e u f) ^ 2))), Ropp_mult_distr_l, <- !sumn_scal, <- sumn_plus.
  apply sumn_le. intros f _. pose proof (young (mul - D f) (d f) (side_r c e u f - side_l c e u f)). lra.
Qed.
Section Rate.
Variables (c : flux_cfg) (t : R) (E : nat -> R -> R) (D : nat -> R).
Hypothesis Hg : fgeom c = Slab.
Hypothesis HN : (2 <= fN c)%nat.
Let e := fun k => E k t.
Hypothesis He : increasing (fN c) e.
Hypothesis HD : forall k, (k <= fN c)%nat -> is_derive (E k) t (D k).
Hypothesis Vl : ~ left_on c t.
Hypothesis Vr : ~ right_on c t.
Variables (A : nat) (ws mus : nat -> R) (cc c_a l : R) (st : nat -> nat -> flux_state) (ste : nat -> flux_state) (W : nat -> nat -> nat -> R -> R) (m : nat -> nat -> R -> R) (d : nat -> nat -> R).
Hypothesis HW : forall a s i, (a < A)%nat -> (s < fN c)%nat -> (i <= fM c)%nat ->
  is_derive (W a s i) t (slab_rhs_thermal c (st a s) A ws mus cc c_a l t e D (fun j => m s j t) (fun _ => 0) (fun l k j => W l k j t) a s i - resid e D (mus a) (d a) s i).
Hypothesis Hm : forall s i, (s < fN c)%nat -> (i <= fM c)%nat ->
  is_derive (m s i) t (slab_energy c (ste s) A ws c_a l t e D (fun j => m s j t) (fun _ => 0) (fun l k j => W l k j t) (fun k j => m k j t) s i - resid e D 0 (d A) s i).
Hypothesis Hw : forall a, (a < A)%nat -> 0 <= ws a.
Hypothesis H1 : sumn A ws = 1.
Hypothesis Hca : 0 <= c_a.
Hypothesis Hcc : cc + c_a <= 1.
Hypothesis Hl : 0 < l.
Lemma line a b : is_derive (fun w => a + (w - t) * b) t b.
Proof. eapply dd_eq; [apply dd_plus; [apply dd_const|apply (dd_mult (fun w => w - t) (fun _ => b)); [apply dd_minus; [apply dd_id|apply dd_const]|apply dd_const]]|]. ring. Qed.
Lemma residual_split (u : nat -> nat -> R) (r : nat -> nat -> R) mul q :
  sumn (fN c) (fun s => sumn (fM c + 1) (fun i => 2 * (u s i * (r s i - resid e D mul q s i)))) =
  sumn (fN c) (fun s => sumn (fM c + 1) (fun i => 2 * (u s i * r s i))) + 2 * cross c e D u mul q.
Proof.
  unfold cross. rewrite <- (residual_sum c e (fun f => mul - D f) q u), <- sumn_scal, <- sumn_plus. apply sumn_ext. intros s _.
  rewrite <- sumn_scal, <- sumn_plus. apply sumn_ext. intros i _. unfold resid. ring.
Qed.
Lemma coupled_forced : exists r : R,
  is_derive (fun w => energy c A ws (fun k => E k w) (fun a s j => W a s j w) + 1 / 4 * normsq c (fun k => E k w) (fun s j => m s j w)) t r /\
  r <= sumn A (fun a => ws a * dsq c D (mus a) (d a)) + 1 / 4 * dsq c D 0 (d A).
Proof.
  set (w0 := fun (a s j : nat) => W a s j t). set (m0 := fun (s j : nat) => m s j t).
  set (r := fun a s i => slab_rhs_thermal c (st a s) A ws mus cc c_a l t e D (m0 s) (fun _ => 0) w0 a s i).
  set (q := fun s i => slab_energy c (ste s) A ws c_a l t e D (m0 s) (fun _ => 0) w0 m0 s i).
  set (V := fun a s i w => w0 a s i + (w - t) * r a s i). set (ee := fun s i w => m0 s i + (w - t) * q s i).
  assert (Vt : (fun l k j => V l k j t) = w0) by (unfold V; do 3 (apply functional_extensionality; intro); ring).
  assert (Et : (fun k j => ee k j t) = m0) by (unfold ee; do 2 (apply functional_extensionality; intro); ring).
  assert (Ej : forall s, (fun j => ee s j t) = m0 s) by (intros s; unfold ee; apply functional_extensionality; intro; ring).
  assert (B1 := coupled_balance c t E D Hg HN He HD Vl Vr A ws mus cc c_a l st ste V ee).
  specialize (B1 ltac:(intros a s i _ _ _; rewrite Vt, Ej; apply line) ltac:(intros s i _ _; rewrite Vt, Et, Ej; apply line) Hl). cbv zeta in B1.
  assert (B2 : is_derive (fun w => energy c A ws (fun k => E k w) (fun a s j => V a s j w) + 1 / 4 * normsq c (fun k => E k w) (fun s j => ee s j w)) t
    (sumn A (fun a => ws a * sumn (fN c) (fun s => sumn (fM c + 1) (fun i => 2 * (w0 a s i * r a s i)))) + 1 / 4 * sumn (fN c) (fun s => sumn (fM c + 1) (fun i => 2 * (m0 s i * q s i))))).
  { apply dd_plus.
    - unfold energy. apply (dd_sumn A (fun a w => ws a * normsq c (fun k => E k w) (fun s j => V a s j w))). intros a Ha. apply dd_scal.
      eapply dd_eq; [apply (norm_derive c t E D HN He HD (fun s j => V a s j) (r a)); intros; apply line|].
      apply sumn_ext. intros s _. apply sumn_ext. intros i _. unfold V. ring.
    - apply dd_scal. eapply dd_eq; [apply (norm_derive c t E D HN He HD ee q); intros; apply line|].
      apply sumn_ext. intros s _. apply sumn_ext. intros i _. unfold ee. ring. }
  assert (EQ := eq_trans (eq_sym (is_derive_unique _ _ _ B2)) (is_derive_unique _ _ _ B1)). clear B1 B2.
  eexists. split.
  { apply dd_plus.
    - unfold energy. apply (dd_sumn A (fun a w => ws a * normsq c (fun k => E k w) (fun s j => W a s j w))). intros a Ha. apply dd_scal.
      apply (norm_derive c t E D HN He HD (fun s j => W a s j) (fun s i => r a s i - resid e D (mus a) (d a) s i)). intros s i Hs Hi. exact (HW a s i Ha Hs Hi).
    - apply dd_scal. apply (norm_derive c t E D HN He HD m (fun s i => q s i - resid e D 0 (d A) s i)). intros s i Hs Hi. exact (Hm s i Hs Hi). }
  rewrite (sumn_ext A _ (fun a => ws a * sumn (fN c) (fun s => sumn (fM c + 1) (fun i => 2 * (w0 a s i * r a s i))) + ws a * (2 * cross c e D (w0 a) (mus a) (d a)))).
  2: { intros a _. rewrite <- Rmult_plus_distr_l. f_equal. exact (residual_split (w0 a) (r a) (mus a) (d a)). }
  change (fun s => sumn (fM c + 1) (fun i => 2 * (m s i t * (q s i - resid e D 0 (d A) s i)))) with (fun s => sumn (fM c + 1) (fun i => 2 * (m0 s i * (q s i - resid e D 0 (d A) s i)))).
  rewrite residual_split, sumn_plus.
  match type of EQ with ?x = ?y => assert (EQ' : x = y) by exact EQ; clear EQ end.
  set (X1 := sumn A (fun a => ws a * sumn (fN c) (fun s => sumn (fM c + 1) (fun i => 2 * (w0 a s i * r a s i))))) in *.
  set (X2 := sumn (fN c) (fun s => sumn (fM c + 1) (fun i => 2 * (m0 s i * q s i)))) in *.
  change (fun (a s j : nat) => V a s j t) with (fun l k j => V l k j t) in EQ'. rewrite Vt in EQ'.
  change (fun (s j : nat) => ee s j t) with (fun k j => ee k j t) in EQ'. rewrite Et in EQ'.
  assert (Va : forall a s j, V a s j t = w0 a s j) by (intros; exact (f_equal (fun h => h a s j) Vt)).
  assert (Ea : forall s j, ee s j t = m0 s j) by (intros; exact (f_equal (fun h => h s j) Et)).
  assert (MN := mean_norm c t E He A ws V Hw H1). fold e in MN.
  rewrite (sumn_ext A (fun a => ws a * normsq c e (fun s j => V a s j t)) (fun a => ws a * normsq c e (w0 a))) in MN.
  2: { intros a _. do 2 f_equal. exact (f_equal (fun h => h a) Vt). }
  set (mean := fun s j => sumn A (fun a => ws a * V a s j t)) in *.
  assert (N1 := normsq_nonneg c e mean He).
  assert (N2 := normsq_nonneg c e (fun s j => mean s j - ee s j t / 2) He).
  assert (P1 : 0 <= 2 / l) by (apply Rlt_le, Rdiv_lt_0_compat; lra).
  assert (P2 : 0 <= 2 * (1 - cc - c_a) / l) by (apply Rmult_le_pos; [lra|left; now apply Rinv_0_lt_compat]).
  assert (P3 : 0 <= 2 * c_a / l) by (apply Rmult_le_pos; [lra|left; now apply Rinv_0_lt_compat]).
  fold (energy c A ws e w0) in MN.
  assert (Q1 := Rmult_le_pos _ _ P1 (proj1 (Rminus_le_0 _ _) MN)). assert (Q2 := Rmult_le_pos _ _ P2 N1). assert (Q3 := Rmult_le_pos _ _ P3 N2).
  assert (YS : - sumn A (fun a => ws a * jumps c e D (w0 a) (mus a)) + sumn A (fun a => ws a * (2 * cross c e D (w0 a) (mus a) (d a))) <= sumn A (fun a => ws a * dsq c D (mus a) (d a))).
  { rewrite <- (Rmult_1_l (sumn A (fun a => ws a * jumps _ _ _ _ _))), Ropp_mult_distr_l, <- sumn_scal, <- sumn_plus. apply sumn_le. intros a Ha.
    pose proof (Rmult_le_compat_l _ _ _ (Hw a Ha) (young_sum c e D (w0 a) (mus a) (d a))). lra. }
  assert (YM := young_sum c e D m0 0 (d A)).
  assert (EQ2 : X1 + 1 / 4 * X2 = - sumn A (fun a => ws a * jumps c e D (w0 a) (mus a)) - 1 / 4 * jumps c e D m0 0
     - 2 / l * (energy c A ws e w0 - normsq c e mean) - 2 * (1 - cc - c_a) / l * normsq c e mean - 2 * c_a / l * normsq c e (fun s j => mean s j - ee s j t / 2)).
  { rewrite EQ'. assert (ME : mean = fun s j => sumn A (fun a => ws a * w0 a s j)).
    { unfold mean. do 2 (apply functional_extensionality; intro). apply sumn_ext. intros. now rewrite Va. }
    rewrite ME. reflexivity. }
  lra.
Qed.
End Rate.
