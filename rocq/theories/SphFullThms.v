(** C162: what a Runge-Kutta method computes for a sphere comes as close to the exact solution as space and angle allow. *)
From Coquelicot Require Import Coquelicot.
From Verif Require Import Py PyLemmas Calc Legendre Cheb DGModel DGSpec DGProofs DGInt DGBalance DGFinal MatModel RhsModel RhsProofs
  SphereProofs SphereBal SphereWeak SphereThms PosDef SphMass SphMassThms SphUnif SphEnergy SphSpec SphStab SphStabThms SphExist SphExistThms StabSpec StabProofs ExistSpec ExistProofs
  ErrSpec ErrLeib ErrProofs ErrEnergy ErrApprox AngleThms SphErrSpec SphErrProj SphErrEn SphErrCons SphErrInv SphErrRate SphErrEst SphErrThms
  TimeModel TimeProofs TimeExist TimeThms TimeOrder TimeOrderThms.
Open Scope R_scope.

(** Two sets of coefficients, the second within d of the first: their distances from the same functions. *)
Section Near.
Variables (c : rhs_cfg) (E : nat -> R -> R) (t : R) (f : nat -> nat -> R -> R).
Hypothesis HK : (2 <= N_ang c)%nat.
Hypothesis Hd : directions (N_ang c) (mus c).
Hypothesis He : increasing (fN (rflux c)) (fun k => E k t).
Hypothesis Cf : forall a s x, (a < N_ang c)%nat -> (s < fN (rflux c))%nat -> continuous (f a s) x.
Definition gram_size : R := sumn (N_ang c) (fun a => awidth (N_ang c) (mus c) a * sumn (fN (rflux c)) (fun s =>
  INR (fM (rflux c) + 1) * sumn (fM (rflux c) + 1) (fun j => RInt (fun x => x ^ 2 * basis Sphere j x (E s t) (E (S s) t) ^ 2) (E s t) (E (S s) t)))).
Lemma cell_lt s : (s < fN (rflux c))%nat -> E s t < E (S s) t.
Proof. intros Hs. exact (He s Hs). Qed.
Lemma basis_c j a b x : a < b -> continuous (fun x => basis Sphere j x a b) x.
Proof.
  intros H. apply (continuous_ext (fun x => field Sphere j (fun i => if (i =? j)%nat then 1 else 0) a b x)).
  - intros y. unfold field. match goal with |- @eq _ ?p ?q => change (@eq R p q) end.
    rewrite (sumn_single (j + 1) _ j); [rewrite Nat.eqb_refl; ring|lia|]. intros i _ Hi. destruct (Nat.eqb_spec i j); [contradiction|ring].
  - now apply sph_field_cont.
Qed.
Lemma sum_square n (u : nat -> R) : (sumn n u) ^ 2 <= INR n * sumn n (fun j => u j ^ 2).
Proof.
  induction n as [|n IH]; [cbn [sumn]; simpl; lra|]. cbn [sumn]. rewrite S_INR.
  assert (S0 : 0 <= sumn n (fun j => u j ^ 2)) by (apply sumn_nonneg; intros; apply pow2_ge_0).
  set (A := sumn n u) in *. set (B := sumn n (fun j => u j ^ 2)) in *. set (z := u n). pose proof (pos_INR n) as Pn.
  assert (0 <= B * 1 + INR n * z ^ 2 - 2 * A * z); [|nra].
  destruct (Req_dec (INR n) 0) as [Z|Z].
  - rewrite Z in *. assert (A = 0) by nra. rewrite H. lra.
  - assert (P : 0 < INR n) by lra. assert (Q : 0 <= (A - INR n * z) ^ 2) by apply pow2_ge_0.
    apply Rmult_le_reg_l with (INR n); auto. nra.
Qed.
Lemma gram_size_pos : 0 <= gram_size.
Proof.
  unfold gram_size. apply sumn_nonneg. intros a Ha. apply Rmult_le_pos; [left; now apply awidth_pos|]. apply sumn_nonneg. intros s Hs.
  apply Rmult_le_pos; [apply pos_INR|]. apply sumn_nonneg. intros j Hj. assert (L := cell_lt s Hs).
  apply RInt_ge_0; [lra|apply ex_int; intros; apply cmult; [apply cpow, cid|apply cpow; now apply basis_c]|]. intros. apply Rmult_le_pos; apply pow2_ge_0.
Qed.
Lemma sph_dist_pos V : 0 <= sph_dist c E f V t.
Proof.
  unfold sph_dist. apply sumn_nonneg. intros a Ha. apply Rmult_le_pos; [left; now apply awidth_pos|]. apply sumn_nonneg. intros s Hs. assert (L := cell_lt s Hs).
  apply RInt_ge_0; [lra|apply ex_int; intros; apply cmult; [apply cpow, cid|apply cpow, cminus; [unfold psi_at; now apply sph_field_cont|now apply Cf]]|]. intros. apply Rmult_le_pos; apply pow2_ge_0.
Qed.
Lemma sph_near V W th d : 0 < th -> (forall a s j, (a < N_ang c)%nat -> (s < fN (rflux c))%nat -> (j <= fM (rflux c))%nat -> Rabs (W a s j t - V a s j t) <= d) ->
  sph_dist c E f W t <= (1 + th) * sph_dist c E f V t + (1 + / th) * (gram_size * d ^ 2).
Proof.
  intros Hth Hd'. unfold sph_dist, gram_size. assert (Ti : 0 < / th) by now apply Rinv_0_lt_compat.
  rewrite <- (Rmult_comm (d ^ 2)), <- (sumn_scal _ (d ^ 2)), <- !sumn_scal, <- sumn_plus. apply sumn_le. intros a Ha.
  pose proof (awidth_pos (N_ang c) (mus c) a HK Hd Ha) as Pw. set (w := awidth (N_ang c) (mus c) a) in *.
  match goal with |- w * ?p <= (1 + th) * (w * ?q) + (1 + / th) * (d ^ 2 * (w * ?r)) => assert (X : p <= (1 + th) * q + (1 + / th) * (d ^ 2 * r)); [|nra] end.
  rewrite <- (sumn_scal _ (d ^ 2)), <- !sumn_scal, <- sumn_plus. apply sumn_le. intros s Hs. assert (L := cell_lt s Hs).
  set (M := fM (rflux c)) in *. set (ea := E s t) in *. set (eb := E (S s) t) in *.
  assert (CP : forall U x, continuous (psi_at c E U a s t) x) by (intros; unfold psi_at; now apply sph_field_cont).
  assert (CC : forall (g : R -> R) x, (forall y, continuous g y) -> continuous (fun y => y ^ 2 * g y ^ 2) x) by (intros; apply cmult; [apply cpow, cid|apply cpow; auto]).
  assert (I1 : is_RInt (fun x => x ^ 2 * (psi_at c E W a s t x - f a s x) ^ 2) ea eb (RInt (fun x => x ^ 2 * (psi_at c E W a s t x - f a s x) ^ 2) ea eb)).
  { apply int_val. intros. apply CC. intros. apply cminus; auto. }
  assert (I2 : is_RInt (fun x => x ^ 2 * (psi_at c E V a s t x - f a s x) ^ 2) ea eb (RInt (fun x => x ^ 2 * (psi_at c E V a s t x - f a s x) ^ 2) ea eb)).
  { apply int_val. intros. apply CC. intros. apply cminus; auto. }
  assert (I3 : is_RInt (fun x => sumn (M + 1) (fun j => x ^ 2 * basis Sphere j x ea eb ^ 2)) ea eb (sumn (M + 1) (fun j => RInt (fun x => x ^ 2 * basis Sphere j x ea eb ^ 2) ea eb))).
  { apply int_sumn. intros j Hj. apply int_val. intros. apply CC. intros. now apply basis_c. }
  assert (I4 := int_plus _ _ _ _ _ _ (int_scal _ (1 + th) _ _ _ I2) (int_scal _ ((1 + / th) * (d ^ 2 * INR (M + 1))) _ _ _ I3)).
  apply Rle_trans with ((1 + th) * RInt (fun x => x ^ 2 * (psi_at c E V a s t x - f a s x) ^ 2) ea eb + (1 + / th) * (d ^ 2 * INR (M + 1)) * sumn (M + 1) (fun j => RInt (fun x => x ^ 2 * basis Sphere j x ea eb ^ 2) ea eb)); [|right; ring].
  apply (is_RInt_le _ _ ea eb _ _ (Rlt_le _ _ L) I1 I4). intros x _. cbv beta.
  set (p := psi_at c E V a s t x - f a s x). set (q := psi_at c E W a s t x - psi_at c E V a s t x).
  replace (psi_at c E W a s t x - f a s x) with (p + q) by (unfold p, q; ring).
  assert (Q1 : (p + q) ^ 2 <= (1 + th) * p ^ 2 + (1 + / th) * q ^ 2).
  { assert (K0 : 0 <= (sqrt th * p - / sqrt th * q) ^ 2) by apply pow2_ge_0. pose proof (sqrt_lt_R0 th Hth) as Ps.
    assert (K1 : sqrt th * sqrt th = th) by (apply sqrt_sqrt; lra).
    replace ((sqrt th * p - / sqrt th * q) ^ 2) with (sqrt th * sqrt th * p ^ 2 + / (sqrt th * sqrt th) * q ^ 2 - 2 * (p * q)) in K0 by (field; lra). rewrite K1 in K0. nra. }
  assert (Q2 : q ^ 2 <= d ^ 2 * INR (M + 1) * sumn (M + 1) (fun j => basis Sphere j x ea eb ^ 2)).
  { replace q with (sumn (M + 1) (fun j => (W a s j t - V a s j t) * basis Sphere j x ea eb)).
    2: { unfold q, psi_at, field. fold M ea eb. rewrite <- sumn_minus. apply sumn_ext. intros; ring. }
    eapply Rle_trans; [apply sum_square|]. rewrite (Rmult_comm (d ^ 2)), Rmult_assoc. apply Rmult_le_compat_l; [apply pos_INR|]. rewrite <- sumn_scal. apply sumn_le. intros j Hj.
    rewrite Rpow_mult_distr. apply Rmult_le_compat_r; [apply pow2_ge_0|]. rewrite <- (pow2_abs (W a s j t - V a s j t)). apply pow_incr. split; [apply Rabs_pos|apply Hd'; auto; unfold M in Hj; lia]. }
  assert (X2 : 0 <= x ^ 2) by apply pow2_ge_0. rewrite sumn_scal.
  apply Rle_trans with (x ^ 2 * ((1 + th) * p ^ 2 + (1 + / th) * (d ^ 2 * INR (M + 1) * sumn (M + 1) (fun j => basis Sphere j x ea eb ^ 2)))); [|right; ring].
  apply Rmult_le_compat_l; [auto|]. eapply Rle_trans; [exact Q1|]. apply Rplus_le_compat_l. apply Rmult_le_compat_l; [lra|exact Q2].
Qed.
End Near.

(** the start the estimates assume: the projections of the exact solution *)
Definition from_projection (c : rhs_cfg) (E : nat -> R -> R) (psi : nat -> nat -> R -> R -> R) (t0 : R) (y : idx -> R) : Prop :=
  vector (N_ang c) (fN (rflux c)) (fM (rflux c)) y /\
  forall a s j, (a < N_ang c)%nat -> (s < fN (rflux c))%nat -> (j <= fM (rflux c))%nat -> y (a, s, j) = rproj (fM (rflux c)) (fun x => psi a s x t0) (E s t0) (E (S s) t0) j.
(** the square distance of a state vector at time t from the exact solution *)
Definition vec_dist (c : rhs_cfg) (E : nat -> R -> R) (psi : nat -> nat -> R -> R -> R) (t : R) (y : idx -> R) : R :=
  sph_dist c E (fun a s x => psi a s x t) (fun a s j _ => y (a, s, j)) t.

Section Core.
Variables (T : tableau) (c : rhs_cfg) (E : nat -> R -> R) (Q : nat -> R -> R -> R) (psi ang : nat -> nat -> R -> R -> R) (em : nat -> R -> R -> R) (t0 t1 : R) (st : R -> nat -> nat -> flux_state) (B : R).
Hypothesis HT : consistent T.
Hypothesis Hg : fgeom (rflux c) = Sphere.
Hypothesis HN : (2 <= fN (rflux c))%nat.
Hypothesis HK : (2 <= N_ang c)%nat.
Hypothesis H10 : (fM (rflux c) <= 10)%nat.
Hypothesis Hok : forallb (refl_ok c) (seq 0 (N_ang c)) = true.
Hypothesis Hd : directions (N_ang c) (mus c).
Hypothesis Hle : t0 <= t1.
Hypothesis HD : sph_data c E t0 t1.
Hypothesis HX : sph_exact c E Q psi ang em t0 t1.
Hypothesis HB : forall V, sph_run c E st V t0 t1 ->
  (forall a s j, V a s j t0 = rproj (fM (rflux c)) (fun x => psi a s x t0) (E s t0) (E (S s) t0) j) -> sph_dist c E (fun a s x => psi a s x t1) V t1 <= B.
Let V0 a s j := rproj (fM (rflux c)) (fun x => psi a s x t0) (E s t0) (E (S s) t0) j.
Lemma psi_cont a s x : (a < N_ang c)%nat -> (s < fN (rflux c))%nat -> continuous (fun y => psi a s y t1) x.
Proof. intros Ha Hs. exact (psi_c c E Q psi ang em t0 t1 HX t1 s Hs a x Ha). Qed.
Lemma inc1 : increasing (fN (rflux c)) (fun k => E k t1).
Proof. destruct HD as (A & _). destruct (A t1 ltac:(lra)) as ((_ & I & _) & _). exact I. Qed.
Lemma core_any eps : 0 < eps -> exists delta, 0 < delta /\ forall hs y, (forall h, In h hs -> 0 <= h <= delta) -> t0 + total hs = t1 -> from_projection c E psi t0 y ->
  (exists y', rk_run T (sphereR c st) t0 y hs y') /\ forall y', rk_run T (sphereR c st) t0 y hs y' -> vec_dist c E psi t1 y' <= B + eps.
Proof.
  intros Heps. destruct (C136_exists c E st V0 t0 t1 Hg HN H10 Hle Hok HD) as (V & HV & HV0).
  assert (DV := HB V HV HV0). assert (D0 := sph_dist_pos c E t1 (fun a s x => psi a s x t1) HK Hd inc1 psi_cont V).
  set (th := eps / (2 * (B + 1))). assert (Th : 0 < th) by (unfold th; apply Rdiv_lt_0_compat; lra).
  assert (Ti : 0 < / th) by now apply Rinv_0_lt_compat.
  pose proof (gram_size_pos c E t1 HK Hd inc1) as PG. set (G0 := gram_size c E t1) in *.
  set (G := (1 + / th) * G0 + 1). assert (PG1 : 1 <= G) by (unfold G; assert (0 <= (1 + / th) * G0) by (apply Rmult_le_pos; lra); lra).
  set (e := sqrt (eps / (2 * G))). assert (Pe : 0 < e) by (apply sqrt_lt_R0, Rdiv_lt_0_compat; lra).
  destruct (C138_sphere T c E st st V t0 t1 HT Hg HN HK Hle HD HV e Pe) as (d1 & P1 & R1).
  destruct (C138_sphere_runs_exist T c E st t0 t1 HT Hg HN HK Hle HD H10 Hok) as (d2 & P2 & R2).
  exists (Rmin d1 d2). split; [now apply Rmin_pos|]. intros hs y Hhs Ht [Hy Hy0]. split.
  { destruct (R2 hs t0 y) as (z & Hz & _); [lra|intros x Hx; specialize (Hhs x Hx); pose proof (Rmin_r d1 d2); lra|lra|]. exists z. exact Hz. }
  intros y' Hrun. unfold vec_dist.
  assert (CL : forall a s j, (a < N_ang c)%nat -> (s < fN (rflux c))%nat -> (j <= fM (rflux c))%nat -> Rabs (y' (a, s, j) - V a s j t1) <= e).
  { intros a s j Ha Hs Hj. rewrite <- Ht. apply (R1 hs y y'); auto.
    - intros x Hx. specialize (Hhs x Hx). pose proof (Rmin_l d1 d2). lra.
    - lra.
    - intros b k i Hb Hk Hi. rewrite Hy0, HV0 by auto. unfold V0. rewrite Rminus_eq_0, Rabs_R0. lra. }
  eapply Rle_trans; [apply (sph_near c E t1 (fun a s x => psi a s x t1) HK Hd inc1 psi_cont V (fun a s j _ => y' (a, s, j)) th e Th CL)|]. fold G0.
  assert (e2 : e ^ 2 = eps / (2 * G)) by (unfold e; rewrite <- Rsqr_pow2; apply Rsqr_sqrt; left; apply Rdiv_lt_0_compat; lra). rewrite e2.
  assert (S1 : (1 + / th) * (G0 * (eps / (2 * G))) <= eps / 2).
  { replace ((1 + / th) * (G0 * (eps / (2 * G)))) with ((G - 1) * (eps / (2 * G))) by (unfold G; ring).
    replace (eps / 2) with (G * (eps / (2 * G))) by (field; lra). apply Rmult_le_compat_r; [left; apply Rdiv_lt_0_compat; lra|lra]. }
  set (DD := sph_dist c E (fun a s x => psi a s x t1) V t1) in *.
  assert (S2 : th * DD <= eps / 2).
  { apply Rle_trans with (th * (B + 1)); [apply Rmult_le_compat_l; lra|]. unfold th. right. field. lra. }
  lra.
Qed.
Lemma core_rest p : order_linear T p -> (forall k t, (k <= fN (rflux c))%nat -> t0 <= t <= t1 -> r_Dedges c t k = 0) ->
  (forall s i t, (s < fN (rflux c))%nat -> (i <= fM (rflux c))%nat -> t0 <= t <= t1 -> Src c t (E s t) (E (S s) t) i = Src c t0 (E s t0) (E (S s) t0) i) ->
  exists C d0, 0 < C /\ 0 < d0 /\ forall d hs y, 0 <= d <= d0 -> (forall h, In h hs -> 0 <= h <= d) -> t0 + total hs = t1 -> from_projection c E psi t0 y ->
  forall y', rk_run T (sphereR c st) t0 y hs y' -> vec_dist c E psi t1 y' <= 2 * B + C * d ^ (2 * p).
Proof.
  intros HP HR HS. destruct (C136_exists c E st V0 t0 t1 Hg HN H10 Hle Hok HD) as (V & HV & HV0).
  assert (DV := HB V HV HV0). pose proof (gram_size_pos c E t1 HK Hd inc1) as PG. set (G0 := gram_size c E t1) in *.
  destruct (C146_sphere T p c E st st V t0 t1 HT HP Hg HN HK Hle HD HR HS HV) as (C & d0 & PC & Pd & R1).
  exists (2 * G0 * C ^ 2 + 1), d0. split; [assert (0 <= 2 * G0 * C ^ 2) by (apply Rmult_le_pos; [lra|apply pow2_ge_0]); lra|]. split; auto.
  intros d hs y Hd' Hhs Ht [Hy Hy0] y' Hrun. unfold vec_dist.
  assert (CL : forall a s j, (a < N_ang c)%nat -> (s < fN (rflux c))%nat -> (j <= fM (rflux c))%nat -> Rabs (y' (a, s, j) - V a s j t1) <= C * d ^ p).
  { intros a s j Ha Hs Hj. rewrite <- Ht. replace (C * d ^ p) with (C * (0 + d ^ p)) by ring. apply (R1 d hs y y' 0); auto; try lra.
    intros b k i Hb Hk Hi. rewrite Hy0, HV0 by auto. unfold V0. rewrite Rminus_eq_0, Rabs_R0. lra. }
  eapply Rle_trans; [apply (sph_near c E t1 (fun a s x => psi a s x t1) HK Hd inc1 psi_cont V (fun a s j _ => y' (a, s, j)) 1 (C * d ^ p) Rlt_0_1 CL)|]. fold G0.
  replace ((C * d ^ p) ^ 2) with (C ^ 2 * d ^ (2 * p)) by (rewrite Rpow_mult_distr, (Nat.mul_comm 2 p), pow_mult; ring).
  assert (0 <= d ^ (2 * p)) by (apply pow_le; lra). rewrite Rinv_1. lra.
Qed.
End Core.

(** the bound of [C160_order] for a start at the projections *)
Definition sph_bound (c : rhs_cfg) (lam gam h Kd sg Rr wmin alpha beta t0 t1 : R) : R :=
  let k := gam + 2 * (kappa c * sigma_s c - 1) + 2 * lam in let eta := sph_eta (fM (rflux c)) Kd h in
  exp (Rmax k 0 * (t1 - t0)) * (2 * (INR (fN (rflux c)) * Rr ^ 2 * sg * eta ^ 2 + / lam * Rr * (alpha + 2 * eta / wmin) ^ 2 + sigma_s c ^ 2 / lam * Rr ^ 3 * beta ^ 2) * (t1 - t0))
  + 2 * Rr ^ 3 * eta ^ 2.
(** what [C160_order] asks of the exact solution and the mesh *)
Definition sph_sizes (c : rhs_cfg) (E : nat -> R -> R) (psi ang : nat -> nat -> R -> R -> R) (em : nat -> R -> R -> R) (lam gam h Kd sg Rr wmin alpha beta t0 t1 : R) : Prop :=
  0 < lam /\ 0 <= gam /\ 0 <= sigma_s c /\
  (forall t a s, t0 <= t <= t1 -> (a < N_ang c)%nat -> (s < fN (rflux c))%nat -> 8 * (INR (fM (rflux c)) + 1) ^ 2 * offset c a <= gam * (E (S s) t - E s t)) /\
  (forall t s, t0 <= t <= t1 -> (s < fN (rflux c))%nat -> E (S s) t - E s t <= h) /\ (forall t, t0 <= t <= t1 -> E (fN (rflux c)) t <= Rr) /\
  (forall t a s x, t0 <= t <= t1 -> (a < N_ang c)%nat -> (s < fN (rflux c))%nat -> E s t <= x <= E (S s) t ->
     (forall k, (k <= S (fM (rflux c)))%nat -> ex_derive_n (fun y => psi a s y t) k x) /\ Rabs (Derive_n (fun y => psi a s y t) (S (fM (rflux c))) x) <= Kd /\
     Rabs (ang a s x t - aterm (N_ang c) (mus c) (fun l => psi l s x t) a) <= alpha /\ Rabs (em s x t - sumn (N_ang c) (fun l => wsa c l * psi l s x t)) <= beta) /\
  (forall t a s, t0 <= t <= t1 -> (a < N_ang c)%nat -> (s < fN (rflux c))%nat -> Rabs (mus c a - r_Dedges c t (S s)) <= sg) /\
  0 < wmin /\ (forall a, (a < N_ang c)%nat -> wmin <= awidth (N_ang c) (mus c) a).
Lemma start_zero c E psi t0 V : (forall a s j, (a < N_ang c)%nat -> (s < fN (rflux c))%nat -> (j <= fM (rflux c))%nat -> V a s j t0 = rproj (fM (rflux c)) (fun x => psi a s x t0) (E s t0) (E (S s) t0) j) ->
  sph_dist c E (fun a s x => rproj_at (fM (rflux c)) E (psi a s) s t0 x) V t0 = 0.
Proof.
  intros HV. unfold sph_dist. rewrite (sumn_ext (N_ang c) _ (fun _ => 0)); [rewrite sumn_const; ring|]. intros a Ha.
  rewrite (sumn_ext (fN (rflux c)) _ (fun _ => 0)); [rewrite sumn_const; ring|]. intros s Hs.
  apply int_uniq. apply (int_ext (fun _ => 0)); [|eapply int_eq; [apply int_const|ring]]. intros x.
  assert (XX : psi_at c E V a s t0 x = rproj_at (fM (rflux c)) E (psi a s) s t0 x).
  { unfold psi_at, rproj_at, field. apply sumn_ext. intros j Hj. rewrite HV by (auto; lia). reflexivity. }
  rewrite XX. ring.
Qed.
Lemma bound_holds c E Q psi ang em t0 t1 st lam gam h Kd sg Rr wmin alpha beta :
  fgeom (rflux c) = Sphere -> (2 <= fN (rflux c))%nat -> (2 <= N_ang c)%nat -> directions (N_ang c) (mus c) -> t0 <= t1 ->
  mesh_c1 (rflux c) E (fun k t => r_Dedges c t k) -> sph_exact c E Q psi ang em t0 t1 -> sph_sizes c E psi ang em lam gam h Kd sg Rr wmin alpha beta t0 t1 ->
  forall V, sph_run c E st V t0 t1 -> (forall a s j, V a s j t0 = rproj (fM (rflux c)) (fun x => psi a s x t0) (E s t0) (E (S s) t0) j) ->
  sph_dist c E (fun a s x => psi a s x t1) V t1 <= sph_bound c lam gam h Kd sg Rr wmin alpha beta t0 t1.
Proof.
  intros Hg HN HK Hd Hle HM HX (S1 & S2 & S3 & S4 & S5 & S6 & S7 & S8 & S9 & S10) V HV HV0.
  pose proof (C160_order c E Q psi ang em t0 t1 V st lam gam h Kd sg Rr wmin alpha beta Hg HN HK Hd Hle HM HX HV S1 S2 S3 S4 S5 S6 S7 S8 S9 S10) as X.
  cbv zeta in X. rewrite (start_zero c E psi t0 V) in X by (intros; apply HV0). rewrite Rmult_0_r, Rplus_0_l in X. exact X.
Qed.

(** A moving mesh and any consistent method: with steps short enough the numbers computed exceed the bound of
    [C160_order] by as little as wanted; the steps of an implicit method can be solved. *)
Theorem C162_moving_mesh : forall T c E Q psi ang em t0 t1 st lam gam h Kd sg Rr wmin alpha beta,
  consistent T -> fgeom (rflux c) = Sphere -> (2 <= fN (rflux c))%nat -> (2 <= N_ang c)%nat -> (fM (rflux c) <= 10)%nat ->
  forallb (refl_ok c) (seq 0 (N_ang c)) = true -> directions (N_ang c) (mus c) -> t0 <= t1 -> mesh_c1 (rflux c) E (fun k t => r_Dedges c t k) ->
  sph_data c E t0 t1 -> sph_exact c E Q psi ang em t0 t1 -> sph_sizes c E psi ang em lam gam h Kd sg Rr wmin alpha beta t0 t1 ->
  forall eps, 0 < eps -> exists delta, 0 < delta /\ forall hs y, (forall h, In h hs -> 0 <= h <= delta) -> t0 + total hs = t1 -> from_projection c E psi t0 y ->
    (exists y', rk_run T (sphereR c st) t0 y hs y') /\
    forall y', rk_run T (sphereR c st) t0 y hs y' -> vec_dist c E psi t1 y' <= sph_bound c lam gam h Kd sg Rr wmin alpha beta t0 t1 + eps.
Proof.
  intros T c E Q psi ang em t0 t1 st lam gam h Kd sg Rr wmin alpha beta HT Hg HN HK H10 Hok Hd Hle HM HD HX HS.
  apply (core_any T c E Q psi ang em t0 t1 st _ HT Hg HN HK H10 Hok Hd Hle HD HX).
  now apply (bound_holds c E Q psi ang em t0 t1 st).
Qed.
Print Assumptions C162_moving_mesh.

(** A mesh at rest, a source constant in time, a method of order p: twice that bound plus a multiple of the step length
    to the power 2p. *)
Theorem C162_mesh_at_rest : forall T p c E Q psi ang em t0 t1 st lam gam h Kd sg Rr wmin alpha beta,
  consistent T -> order_linear T p -> fgeom (rflux c) = Sphere -> (2 <= fN (rflux c))%nat -> (2 <= N_ang c)%nat -> (fM (rflux c) <= 10)%nat ->
  forallb (refl_ok c) (seq 0 (N_ang c)) = true -> directions (N_ang c) (mus c) -> t0 <= t1 -> mesh_c1 (rflux c) E (fun k t => r_Dedges c t k) ->
  (forall k t, (k <= fN (rflux c))%nat -> t0 <= t <= t1 -> r_Dedges c t k = 0) ->
  (forall s i t, (s < fN (rflux c))%nat -> (i <= fM (rflux c))%nat -> t0 <= t <= t1 -> Src c t (E s t) (E (S s) t) i = Src c t0 (E s t0) (E (S s) t0) i) ->
  sph_data c E t0 t1 -> sph_exact c E Q psi ang em t0 t1 -> sph_sizes c E psi ang em lam gam h Kd sg Rr wmin alpha beta t0 t1 ->
  exists C d0, 0 < C /\ 0 < d0 /\ forall d hs y, 0 <= d <= d0 -> (forall h, In h hs -> 0 <= h <= d) -> t0 + total hs = t1 -> from_projection c E psi t0 y ->
  forall y', rk_run T (sphereR c st) t0 y hs y' -> vec_dist c E psi t1 y' <= 2 * sph_bound c lam gam h Kd sg Rr wmin alpha beta t0 t1 + C * d ^ (2 * p).
Proof.
  intros T p c E Q psi ang em t0 t1 st lam gam h Kd sg Rr wmin alpha beta HT HP Hg HN HK H10 Hok Hd Hle HM HR HSr HD HX HS.
  apply (core_rest T c E Q psi ang em t0 t1 st _ HT Hg HN HK H10 Hok Hd Hle HD HX); auto.
  now apply (bound_holds c E Q psi ang em t0 t1 st).
Qed.
Print Assumptions C162_mesh_at_rest.

(** even directions: the sizes of [C161_error] *)
Lemma even_sizes c E f t0 t1 h Kd sg Rr F0 F1 F2 : (2 <= N_ang c)%nat -> even_directions c -> 0 <= sigma_s c ->
  (forall t s, t0 <= t <= t1 -> (s < fN (rflux c))%nat -> E (S s) t - E s t <= h) -> (forall t, t0 <= t <= t1 -> E (fN (rflux c)) t <= Rr) ->
  (forall t a s x, t0 <= t <= t1 -> (a < N_ang c)%nat -> (s < fN (rflux c))%nat -> E s t <= x <= E (S s) t ->
     (forall k, (k <= S (fM (rflux c)))%nat -> ex_derive_n (fun y => f s y (mus c a) t) k x) /\ Rabs (Derive_n (fun y => f s y (mus c a) t) (S (fM (rflux c))) x) <= Kd) ->
  (forall t s x, t0 <= t <= t1 -> (s < fN (rflux c))%nat -> E s t <= x <= E (S s) t -> exists f1 f2, forall m, -1 <= m <= 1 ->
     is_derive (fun z => f s x z t) m (f1 m) /\ is_derive f1 m (f2 m) /\ Rabs (f s x m t) <= F0 /\ Rabs (f1 m) <= F1 /\ Rabs (f2 m) <= F2) ->
  (forall t a s, t0 <= t <= t1 -> (a < N_ang c)%nat -> (s < fN (rflux c))%nat -> Rabs (mus c a - r_Dedges c t (S s)) <= sg) ->
  let K := INR (N_ang c) in
  sph_sizes c E (fun a s x t => f s x (mus c a) t) (fun a s x t => Derive (fun m => (1 - m ^ 2) * f s x m t) (mus c a)) (fun s x t => 1 / 2 * RInt (fun m => f s x m t) (-1) 1)
    1 0 h Kd sg Rr (2 / K) ((2 * F0 + 4 * F1 + 3 / 2 * F2) / K) (F1 / K) t0 t1.
Proof.
  intros HK Hev Hs Hh HR Hr Hm Hsg K.
  pose proof (NK_pos c HK) as PK. fold K in PK. assert (Hd := even_dirs c HK Hev). assert (IK : 0 < / K) by (apply Rinv_0_lt_compat; auto).
  refine (conj Rlt_0_1 (conj (Rle_refl 0) (conj Hs (conj _ (conj Hh (conj HR (conj _ (conj Hsg (conj _ _))))))))).
  - intros t a s Ht Ha Hs'. rewrite (even_offset c HK Hev a Ha). right. ring.
  - intros t a s x Ht Ha Hs' Hx. destruct (Hr t a s x Ht Ha Hs' Hx) as [A1 A2]. destruct (Hm t s x Ht Hs' Hx) as (f1 & f2 & Hf). refine (conj A1 (conj A2 (conj _ _))).
    + destruct (C152_angular_term_first_order (N_ang c) (mus c) (fun m => f s x m t) f1 f2 F2 (F2 + 4 * F1 + 2 * F0) (/ K) a HK) as (d & Dd & Bd); auto.
      * intros b Hb. apply Hd; auto.
      * apply Hd.
      * apply Hd.
      * intros b Hb. rewrite (proj1 (Hev b ltac:(lia))), (proj1 (Hev (S b) Hb)), S_INR. fold K. right. field. lra.
      * rewrite (proj1 (Hev 0%nat ltac:(lia))). fold K. simpl (INR 0). right. field. lra.
      * rewrite (proj1 (Hev (N_ang c - 1)%nat ltac:(lia))), minus_INR by lia. fold K. simpl (INR 1). right. field. lra.
      * intros z Hz. apply Hf. auto.
      * intros z Hz. apply Hf. auto.
      * intros z Hz. apply Hf. auto.
      * intros z Hz. destruct (Hf z Hz) as (_ & _ & B0 & B1 & B2). apply Rabs_le_between in B0, B1, B2. apply Rabs_le. assert (Z1 : 0 <= 1 - z ^ 2 <= 1) by nra.
        assert (- F2 <= (1 - z ^ 2) * f2 z <= F2) by nra. assert (- F1 <= z * f1 z <= F1) by nra. lra.
      * match goal with |- Rabs (?D - _) <= _ => assert (ED : D = d) by exact (is_derive_unique _ _ _ Dd) end. cbv beta in ED |- *. rewrite ED. rewrite Rabs_minus_sym. eapply Rle_trans; [exact Bd|]. right. field. lra.
    + destruct (even_quadrature c HK Hev (fun m => f s x m t) f1 F1) as [B|B].
      * intros z Hz. apply Hf. auto.
      * intros z Hz. apply Hf. auto.
      * left. exact B.
      * right. exact B.
  - apply Rdiv_lt_0_compat; lra.
  - intros a Ha. rewrite (even_width c HK Hev a Ha). fold K. lra.
Qed.
(** Refining everything: once directions and cells are fine enough in the sense of [C161_converges] there is a step length
    below which the numbers computed are within eps of the solution of the transport equation. *)
Theorem C162_converges : forall M D sigma Kd sg Rr F0 F1 F2 eps, 0 <= D -> 0 <= sigma -> 0 <= Kd -> 0 <= sg -> 0 <= Rr -> 0 <= F0 -> 0 <= F1 -> 0 <= F2 -> 0 < eps ->
  exists del, 0 < del /\ forall T c E Q f t0 st h,
  consistent T -> fM (rflux c) = M -> sigma_s c = sigma -> fgeom (rflux c) = Sphere -> (2 <= fN (rflux c))%nat -> (2 <= N_ang c)%nat -> (fM (rflux c) <= 10)%nat ->
  forallb (refl_ok c) (seq 0 (N_ang c)) = true -> even_directions c ->
  mesh_c1 (rflux c) E (fun k t => r_Dedges c t k) -> sph_data c E t0 (t0 + D) -> sph_transport c E Q f t0 (t0 + D) ->
  (forall t s, t0 <= t <= t0 + D -> (s < fN (rflux c))%nat -> E (S s) t - E s t <= h) -> (forall t, t0 <= t <= t0 + D -> E (fN (rflux c)) t <= Rr) ->
  (forall t a s x, t0 <= t <= t0 + D -> (a < N_ang c)%nat -> (s < fN (rflux c))%nat -> E s t <= x <= E (S s) t ->
     (forall k, (k <= S M)%nat -> ex_derive_n (fun y => f s y (mus c a) t) k x) /\ Rabs (Derive_n (fun y => f s y (mus c a) t) (S M) x) <= Kd) ->
  (forall t s x, t0 <= t <= t0 + D -> (s < fN (rflux c))%nat -> E s t <= x <= E (S s) t -> exists f1 f2, forall m, -1 <= m <= 1 ->
     is_derive (fun z => f s x z t) m (f1 m) /\ is_derive f1 m (f2 m) /\ Rabs (f s x m t) <= F0 /\ Rabs (f1 m) <= F1 /\ Rabs (f2 m) <= F2) ->
  (forall t a s, t0 <= t <= t0 + D -> (a < N_ang c)%nat -> (s < fN (rflux c))%nat -> Rabs (mus c a - r_Dedges c t (S s)) <= sg) ->
  0 <= h -> INR (N_ang c) * h ^ S M <= del -> INR (fN (rflux c)) * (h ^ S M) ^ 2 <= del -> / INR (N_ang c) <= del ->
  let psi a s x t := f s x (mus c a) t in
  exists delta, 0 < delta /\ forall hs y, (forall h, In h hs -> 0 <= h <= delta) -> total hs = D -> from_projection c E psi t0 y ->
    (exists y', rk_run T (sphereR c st) t0 y hs y') /\ forall y', rk_run T (sphereR c st) t0 y hs y' -> vec_dist c E psi (t0 + D) y' <= eps.
Proof.
  intros M D sigma Kd sg Rr F0 F1 F2 eps HD0 Hsi HKd Hsg0 HRr HF0 HF1 HF2 Heps.
  destruct (C161_converges M D sigma Kd sg Rr F0 F1 F2 (eps / 2) HD0 Hsi HKd Hsg0 HRr HF0 HF1 HF2 ltac:(lra)) as (del & Pd & HC).
  exists del. split; auto. intros T c E Q f t0 st h HT EM ES Hg HN HK H10 Hok Hev HM HD HX Hh HR Hr Hm Hsg Hh0 G1 G2 G3 psi.
  destruct (core_any T c E Q psi (fun a s x t => Derive (fun m => (1 - m ^ 2) * f s x m t) (mus c a)) (fun s x t => 1 / 2 * RInt (fun m => f s x m t) (-1) 1) t0 (t0 + D) st (eps / 2) HT Hg HN HK H10 Hok (even_dirs c HK Hev) ltac:(lra) HD HX) with (eps := eps / 2) as (delta & Pde & HR1); [|lra|].
  - intros V HV HV0. apply (HC c E Q f t0 V st h); auto. intros a s j _ _ _. rewrite HV0, EM. reflexivity.
  - exists delta. split; auto. intros hs y Hhs Ht Hy. destruct (HR1 hs y Hhs ltac:(lra) Hy) as [K1 K2]. split; auto. intros y' Hrun. specialize (K2 y' Hrun). lra.
Qed.
Print Assumptions C162_converges.

(** the shrinking sphere of [C161_example], two directions and RK45: with steps short enough the numbers at time 1 are as
    near to the solution as the directions allow *)
Example C162_example : forall A B ss st eps, A * ss = 0 -> 0 <= ss <= 1 -> 0 < eps -> exists delta, 0 < delta /\
  let psi a s x t := hf A B ss s x (mus (hcfg ss) a) t in
  forall hs y, (forall h, In h hs -> 0 <= h <= delta) -> 0 + total hs = 1 -> from_projection (hcfg ss) hE psi 0 y ->
  (exists y', rk_run rk45 (sphereR (hcfg ss) st) 0 y hs y') /\
  forall y', rk_run rk45 (sphereR (hcfg ss) st) 0 y hs y' ->
  vec_dist (hcfg ss) hE psi 1 y' <= exp (2 * ss) * (2 * (6 * (19 * Rabs A + Rabs B) ^ 2 + ss ^ 2 * 216 * (3 * Rabs A) ^ 2)) + eps.
Proof.
  intros A B ss st eps HA Hss Heps.
  assert (SZ := even_sizes (hcfg ss) hE (hf A B ss) 0 1 3 0 3 6 (7 * Rabs A + Rabs B) (6 * Rabs A) 0 (le_n 2) (h_even ss)).
  destruct (C162_moving_mesh rk45 (hcfg ss) hE (fun _ _ _ => 0) _ _ _ 0 1 st 1 0 3 0 3 6 (2 / INR 2) ((2 * (7 * Rabs A + Rabs B) + 4 * (6 * Rabs A) + 3 / 2 * 0) / INR 2) (6 * Rabs A / INR 2)
    (proj2 rk45_ok) eq_refl (le_n 2) (le_n 2) ltac:(cbn; lia) (h_checks ss) (even_dirs (hcfg ss) (le_n 2) (h_even ss)) ltac:(lra) (h_mesh ss) (h_data ss) (h_transport A B ss HA)) with (eps := eps) as (d & Pd & H); auto.
  - apply SZ; clear SZ.
    + cbn. lra.
    + intros t s Ht Hs. unfold hE. rewrite S_INR. lra.
    + intros t Ht. unfold hE. simpl. lra.
    + intros t a s x Ht Ha Hs Hx. apply h_smooth.
    + intros t s x Ht Hs Hx. pose proof (h_range s x t Ht Hs Hx) as Rx. exists (fun _ => A * (exp (- t) * x)), (fun _ => 0). intros m Hm.
      destruct (h_bound A B ss s x m t Hss Ht Rx Hm) as [B0 B1]. refine (conj _ (conj _ (conj B0 (conj B1 _)))).
      * unfold hf. auto_derive; [exact I|ring].
      * auto_derive; auto.
      * rewrite Rabs_R0. lra.
    + intros t a s Ht Ha Hs. cbn [mus hcfg scfg r_Dedges]. assert (s = 0 \/ s = 1)%nat as [-> | ->] by (cbn in Hs; lia); destruct (a =? 0)%nat; simpl; apply Rabs_le; lra.
  - exists d. split; auto. intros psi hs y Hhs Ht Hy. destruct (H hs y Hhs Ht Hy) as [K1 K2]. split; [exact K1|]. intros y' Hr. eapply Rle_trans; [exact (K2 y' Hr)|].
    apply Rplus_le_compat_r. right. unfold sph_bound. cbv zeta. rewrite (even_kappa (hcfg ss) (le_n 2) (h_even ss)). cbn [fM rflux hcfg sigma_s fN].
    replace (sph_eta 1 0 3) with 0 by (unfold sph_eta, Rdiv; ring). replace (0 + 2 * (1 * ss - 1) + 2 * 1) with (2 * ss) by ring. rewrite Rmax_left by lra.
    simpl (INR 2). replace (2 * ss * (1 - 0)) with (2 * ss) by ring. field.
Qed.
