(** The fits and pictures made of error records (C154). *)
From Coq Require Import String.
From Verif Require Import Py PyLemmas ConfigModel StoreModel RmsModel.
Open Scope R_scope.

(** * Sums over lists *)

Lemma rsum_nonneg : forall l, Forall (fun x => 0 <= x) l -> 0 <= rsum l.
Proof. unfold rsum. induction 1; cbn; lra. Qed.
Lemma rsum_scal : forall k l, rsum (map (fun x => k * x) l) = k * rsum l.
Proof. intros k l. unfold rsum. induction l; cbn; [ring|]. rewrite IHl. ring. Qed.
Lemma rsum_zero : forall (g : R -> R) l, (forall x, 0 <= g x) -> rsum (map g l) = 0 -> forall x, In x l -> g x = 0.
Proof.
  intros g l Hg. induction l as [|a l IH]; intros H x Hx; [contradiction|].
  assert (N : 0 <= rsum (map g l)) by (apply rsum_nonneg; apply Forall_forall; intros y Hy; apply in_map_iff in Hy as (z & <- & _); apply Hg).
  change (g a + rsum (map g l) = 0) in H. pose proof (Hg a). destruct Hx as [<-|Hx]; [lra|]. apply IH; [lra|exact Hx].
Qed.

Definition Sx (x : list R) := rsum x.
Definition Sxx (x : list R) := rsum (map (fun a => a * a) x).
Definition Sxy (x y : list R) := rsum (map2 Rmult x y).

Lemma centred_xx : forall x m, rsum (map (fun a => (a - m) * (a - m)) x) = Sxx x - 2 * m * Sx x + INR (length x) * (m * m).
Proof.
  intros x m. unfold Sxx, Sx. induction x as [|a x IH]; [cbn; ring|]. cbn [map rsum fold_right] in *. unfold rsum in *. cbn [fold_right].
  rewrite IH. cbn [length]. rewrite S_INR. ring.
Qed.
Lemma centred_xy : forall x y m k, length x = length y ->
  rsum (map2 (fun a b => (a - m) * (b - k)) x y) = Sxy x y - m * Sx y - k * Sx x + INR (length x) * (m * k).
Proof.
  intros x. induction x as [|a x IH]; intros [|b y] m k L; try discriminate; [cbn; ring|]. injection L as L. specialize (IH y m k L).
  unfold Sxy, Sx, rsum in *. cbn [map2 fold_right length]. rewrite IH, S_INR. ring.
Qed.
Lemma residual : forall x y s c, length x = length y ->
  rsum (map2 (fun a b => (b - (s * a + c)) * (b - (s * a + c))) x y)
  = Sxx y - 2 * s * Sxy x y - 2 * c * Sx y + s * s * Sxx x + 2 * s * c * Sx x + INR (length x) * (c * c).
Proof.
  intros x. induction x as [|a x IH]; intros [|b y] s c L; try discriminate; [cbn; ring|]. injection L as L. specialize (IH y s c L).
  unfold Sxx, Sxy, Sx, rsum in *. cbn [map map2 fold_right length]. rewrite IH, S_INR. ring.
Qed.
Lemma square_sum : forall x u v, 0 <= u * u * Sxx x + 2 * u * v * Sx x + INR (length x) * (v * v).
Proof.
  intros x u v. assert (E : rsum (map (fun a => (u * a + v) * (u * a + v)) x) = u * u * Sxx x + 2 * u * v * Sx x + INR (length x) * (v * v)).
  { unfold Sxx, Sx, rsum. induction x as [|a x IH]; [cbn; ring|]. cbn [map fold_right length]. rewrite IH, S_INR. ring. }
  rewrite <- E. apply rsum_nonneg. apply Forall_forall. intros y Hy. apply in_map_iff in Hy as (z & <- & _). apply Rle_0_sqr.
Qed.

Lemma linregress_ok : forall x y, length x = length y -> (exists a b, In a x /\ In b x /\ a <> b) ->
  exists s c, linregress x y = Ok (s, c) /\ Sxy x y = s * Sxx x + c * Sx x /\ Sx y = s * Sx x + c * INR (length x).
Proof.
  intros x y L (a & b & Ha & Hb & N). unfold linregress.
  assert (N0 : INR (length x) <> 0) by (apply not_0_INR; destruct x; [contradiction|discriminate]).
  destruct x as [|x0 x'] eqn:Ex; [contradiction|]. rewrite <- Ex in *. rewrite L, Nat.eqb_refl. cbn [negb]. rewrite <- L.
  set (sxx := rsum (map (fun a => (a - mean x) * (a - mean x)) x)).
  set (sxy := rsum (map2 (fun a b => (a - mean x) * (b - mean y)) x y)). cbv zeta.
  assert (E1 : sxx = Sxx x - Sx x * Sx x / INR (length x)).
  { unfold sxx. rewrite centred_xx. unfold mean, Sx. field. exact N0. }
  assert (E2 : sxy = Sxy x y - Sx x * Sx y / INR (length x)).
  { unfold sxy. rewrite centred_xy by exact L. unfold mean, Sx. rewrite <- L. field. exact N0. }
  destruct (Reqb_spec sxx 0) as [Z|Z].
  - exfalso. apply N. pose proof (rsum_zero (fun a => (a - mean x) * (a - mean x)) x (fun z => Rle_0_sqr (z - mean x)) Z) as H.
    assert (Q : forall z, In z x -> z = mean x). { intros z Hz. specialize (H z Hz). cbv beta in H. apply Rmult_integral in H. lra. }
    rewrite (Q a Ha), (Q b Hb). reflexivity.
  - exists (sxy / sxx), (mean y - sxy / sxx * mean x). split; [reflexivity|].
    unfold mean. rewrite <- L. fold (Sx x) (Sx y). split; [|field; auto].
    replace (Sxy x y) with (sxy + Sx x * Sx y / INR (length x)) by (rewrite E2; ring).
    replace (Sxx x) with (sxx + Sx x * Sx x / INR (length x)) by (rewrite E1; ring). field. auto.
Qed.

(** The fit exists as soon as two abscissae differ, and no line has a smaller sum of squares. *)
Theorem C154_least_squares : forall x y, length x = length y -> (exists a b, In a x /\ In b x /\ a <> b) ->
  exists s c, linregress x y = Ok (s, c) /\
    forall s' c', rsum (map2 (fun a b => (b - (s * a + c)) * (b - (s * a + c))) x y)
               <= rsum (map2 (fun a b => (b - (s' * a + c')) * (b - (s' * a + c'))) x y).
Proof.
  intros x y L D. destruct (linregress_ok x y L D) as (s & c & E & N1 & N2). exists s, c. split; [exact E|]. intros s' c'.
  rewrite !residual by exact L. rewrite N1, N2. pose proof (square_sum x (s - s') (c - c')) as Q. nra.
Qed.
Print Assumptions C154_least_squares.

Lemma exact_fit : forall x y k d, length x = length y -> (exists a b, In a x /\ In b x /\ a <> b) ->
  y = map (fun a => k * a + d) x -> linregress x y = Ok (k, d).
Proof.
  intros x y k d L D Ey. destruct (linregress_ok x y L D) as (s & c & E & N1 & N2). rewrite E.
  assert (Q1 : Sxy x y = k * Sxx x + d * Sx x).
  { rewrite Ey. clear. unfold Sxy, Sxx, Sx, rsum. induction x as [|a x IH]; cbn [map map2 fold_right]; [ring|]. rewrite IH. ring. }
  assert (Q2 : Sx y = k * Sx x + d * INR (length x)).
  { rewrite Ey. clear. unfold Sx, rsum. induction x as [|a x IH]; [cbn; ring|]. cbn [map fold_right length]. rewrite IH, S_INR. ring. }
  assert (Z1 : (s - k) * Sxx x + (c - d) * Sx x = 0) by lra. assert (Z2 : (s - k) * Sx x + (c - d) * INR (length x) = 0) by lra.
  assert (Z : rsum (map (fun a => ((s - k) * a + (c - d)) * ((s - k) * a + (c - d))) x) = 0).
  { assert (E3 : rsum (map (fun a => ((s - k) * a + (c - d)) * ((s - k) * a + (c - d))) x)
       = (s - k) * ((s - k) * Sxx x + (c - d) * Sx x) + (c - d) * ((s - k) * Sx x + (c - d) * INR (length x))).
    { unfold Sxx, Sx, rsum. clear. induction x as [|a x IH]; [cbn; ring|]. cbn [map fold_right length]. rewrite IH, S_INR. ring. }
    rewrite E3, Z1, Z2. ring. }
  pose proof (rsum_zero (fun a => ((s - k) * a + (c - d)) * ((s - k) * a + (c - d))) x (fun z => Rle_0_sqr _) Z) as H.
  destruct D as (a & b & Ha & Hb & N).
  assert (Ra := H a Ha). assert (Rb := H b Hb). cbv beta in Ra, Rb. apply Rmult_integral in Ra, Rb.
  assert (Ra' : (s - k) * a + (c - d) = 0) by tauto. assert (Rb' : (s - k) * b + (c - d) = 0) by tauto.
  assert (X : (s - k) * (a - b) = 0) by lra. apply Rmult_integral in X. destruct X as [X|X]; [|lra].
  assert (s = k) by lra. subst s. assert (c = d) by (replace (k - k) with 0 in Ra' by ring; lra). subst c. reflexivity.
Qed.

Lemma logs_ok : forall l, Forall (fun x => 0 < x) l -> logs l = Ok (map ln l).
Proof. induction 1 as [|x l Hx _ IH]; cbn; [reflexivity|]. rewrite (Rltb_true 0 x Hx), IH. reflexivity. Qed.

(** Errors that fall like a power of the number of cells from the second mesh on: the fit returns the constant of the
    power law exactly, whatever the first mesh gave, and prints the constant for the energy density. *)
Theorem C154_power_law : forall p c0 r0 e0 cells C q D r,
  p_cells p = Some (c0 :: cells) ->
  p_RMS p = Some (r0 :: map (fun n => C * Rpower n (- q)) cells) ->
  p_energy p = Some (e0 :: map (fun n => D * Rpower n (- r)) cells) ->
  Forall (fun n => 0 < n) cells -> (exists a b, In a cells /\ In b cells /\ a <> b) -> 0 < C -> 0 < D ->
  find_c p = Ok (C, D).
Proof.
  intros p c0 r0 e0 cells C q D r Hc Hr He Pc (a & b & Ha & Hb & N) PC PD. unfold find_c. rewrite Hc, Hr, He. cbn [attr bind slice_from skipn].
  assert (Pw : forall K s, 0 < K -> Forall (fun x => 0 < x) (map (fun n => K * Rpower n (- s)) cells)).
  { intros K s PK. apply Forall_forall. intros y Hy. apply in_map_iff in Hy as (n & <- & _). apply Rmult_lt_0_compat; [exact PK|apply exp_pos]. }
  rewrite !logs_ok by (auto). cbn [bind].
  assert (Fit : forall K s, 0 < K -> linregress (map ln cells) (map ln (map (fun n => K * Rpower n (- s)) cells)) = Ok (- s, ln K)).
  { intros K s PK. apply exact_fit; [rewrite !map_length; reflexivity| |].
    - rewrite Forall_forall in Pc. exists (ln a), (ln b). split; [apply in_map; exact Ha|]. split; [apply in_map; exact Hb|]. intros E. apply N.
      apply ln_inv; auto.
    - rewrite !map_map. apply map_ext. intros n. rewrite ln_mult by (try exact PK; apply exp_pos). unfold Rpower. rewrite ln_exp. ring. }
  rewrite (Fit C q PC), (Fit D r PD). cbn [bind snd]. rewrite !exp_ln by assumption. reflexivity.
Qed.
Print Assumptions C154_power_law.

(** Errors that fall exponentially with the order: the semi-logarithmic fit returns the rate. *)
Theorem C154_exponential_law : forall p m0 r0 e0 Ms C k D l,
  p_Ms p = Some (m0 :: Ms) ->
  p_RMS p = Some (r0 :: map (fun M => C * exp (- k * M)) Ms) ->
  p_energy p = Some (e0 :: map (fun M => D * exp (- l * M)) Ms) ->
  (exists a b, In a Ms /\ In b Ms /\ a <> b) -> 0 < C -> 0 < D ->
  find_c_semilog p = Ok (- k, - l).
Proof.
  intros p m0 r0 e0 Ms C k D l Hc Hr He Dm PC PD. unfold find_c_semilog. rewrite Hc, Hr, He. cbn [attr bind slice_from skipn].
  assert (Pw : forall K s, 0 < K -> Forall (fun x => 0 < x) (map (fun n => K * exp (- s * n)) Ms)).
  { intros K s PK. apply Forall_forall. intros y Hy. apply in_map_iff in Hy as (n & <- & _). apply Rmult_lt_0_compat; [exact PK|apply exp_pos]. }
  rewrite !logs_ok by (auto). cbn [bind].
  assert (Fit : forall K s, 0 < K -> linregress Ms (map ln (map (fun n => K * exp (- s * n)) Ms)) = Ok (- s, ln K)).
  { intros K s PK. apply exact_fit; [rewrite !map_length; reflexivity|exact Dm|].
    rewrite !map_map. apply map_ext. intros n. rewrite ln_mult by (try exact PK; apply exp_pos). rewrite ln_exp. ring. }
  rewrite (Fit C k PC), (Fit D l PD). reflexivity.
Qed.
Print Assumptions C154_exponential_law.

Example C154_example :
  find_c {| p_tfinal := PInt 1; p_M := 2; p_source := "su_olson"%string; p_major := "cells"%string; p_cells := Some [2; 4; 8]; p_Ms := None;
            p_RMS := Some [7; 3 * Rpower 4 (- 2); 3 * Rpower 8 (- 2)]; p_angles := None; p_times := None;
            p_energy := Some [9; 5 * Rpower 4 (- 1); 5 * Rpower 8 (- 1)] |} = Ok (3, 5).
Proof.
  apply (C154_power_law _ 2 7 9 [4; 8] 3 2 5 1); try reflexivity; try lra.
  - repeat constructor; lra.
  - exists 4, 8. repeat split; [left; reflexivity|right; left; reflexivity|lra].
Qed.

(** A plotter of one of the six transport sources never has the errors of the energy density, however often it loads. *)
Inductive loads (pr : R -> string) : plotter -> plotter -> Prop :=
| loads_none : forall p, loads pr p p
| loads_more : forall p p' p'' u m d, loads pr p p' -> load_RMS_data pr p' u m d = Ok p'' -> loads pr p p''.

(** So both fits stop with an error on it and return nothing. *)
Theorem C154_no_fit_of_transport_errors : forall pr t M source major p, In source source_names ->
  loads pr (rms_plotter t M source major) p ->
  (exists e, find_c p = Err e) /\ (exists e, find_c_semilog p = Err e).
Proof.
  intros pr t M source major p Hs HL.
  assert (I : p_source p = source /\ p_energy p = None).
  { remember (rms_plotter t M source major) as q eqn:Eq. induction HL as [q|q p' p'' u m d _ IH HL].
    - rewrite Eq. split; reflexivity.
    - destruct (IH Eq) as [I1 I2]. unfold load_RMS_data in HL. destruct (d plot_file) as [f|]; [|discriminate].
      destruct (load_name p' u m) as [nm|]; [|discriminate]. cbn [bind] in HL.
      assert (Er : one_of (p_source p') rad_sources = false).
      { rewrite I1. cbn in Hs. repeat destruct Hs as [<-|Hs]; try contradiction; reflexivity. }
      rewrite Er in HL. destruct (match lookup ["gaussian_IC"%string] f with Some (Group _) => Ok tt | Some (Dset _) => Err AttributeError | None => Err KeyError end); [|discriminate].
      cbn [bind] in HL. destruct (read f nil _) as [arr|]; [|discriminate]. cbn [bind] in HL. unfold take_rows in HL.
      repeat match type of HL with (x <- ?e ;; _) = _ => destruct e; [|discriminate]; cbn [bind] in HL end.
      injection HL as <-. split; assumption. }
  destruct I as [_ I]. unfold find_c, find_c_semilog. rewrite I. cbn [attr bind].
  split.
  - destruct (attr (p_cells p)); cbn [bind]; [|eauto]. destruct (logs _); cbn [bind]; [|eauto]. destruct (attr (p_RMS p)); cbn [bind]; [|eauto].
    destruct (logs _); cbn [bind]; eauto.
  - destruct (attr (p_Ms p)); cbn [bind]; [|eauto]. destruct (attr (p_RMS p)); cbn [bind]; [|eauto]. destruct (logs _); cbn [bind]; eauto.
Qed.
Print Assumptions C154_no_fit_of_transport_errors.

(** Even when the errors follow a power law. *)
Theorem C154_fit_of_transport_errors_refuted : exists p, p_source p = "MMS"%string /\ p_cells p = Some [2; 4; 8] /\
  p_RMS p = Some [1; 3 * Rpower 4 (- 2); 3 * Rpower 8 (- 2)] /\ p_energy p = None /\ find_c p = Err AttributeError.
Proof.
  exists {| p_tfinal := PInt 1; p_M := 2; p_source := "MMS"%string; p_major := "cells"%string; p_cells := Some [2; 4; 8]; p_Ms := None;
            p_RMS := Some [1; 3 * Rpower 4 (- 2); 3 * Rpower 8 (- 2)]; p_angles := None; p_times := None; p_energy := None |}.
  repeat split. unfold find_c. cbn [p_cells p_RMS p_energy attr bind slice_from skipn]. rewrite !logs_ok; [reflexivity| |].
  - repeat constructor; apply Rmult_lt_0_compat; try lra; apply exp_pos.
  - repeat constructor; lra.
Qed.
Print Assumptions C154_fit_of_transport_errors_refuted.

(** The triangle: its sloping side has the slope of the stated order on logarithmic axes and lies at the fraction
    1 - 1/dx of the fitted line.  The label stands a fifth of the way along, at the fraction 1 - 1/dy of the lower end. *)
Theorem C154_triangle : forall xs xe slope c dy dx g, 0 < xs -> 0 < xe -> xs <> xe -> 0 < c -> 1 < dx -> 1 < dy ->
  order_triangle xs xe slope c dy dx = Ok g ->
  (ln (snd (g_p2 g)) - ln (snd (g_p1 g))) / (ln (fst (g_p2 g)) - ln (fst (g_p1 g))) = - slope /\
  fst (g_p1 g) = xs /\ fst (g_p2 g) = xe /\
  snd (g_p1 g) = (1 - 1 / dx) * (c * Rpower xs (- slope)) /\
  ln (fst (g_text g)) = ln xs + (ln xe - ln xs) / 5 /\ snd (g_text g) = (1 - 1 / dy) * snd (g_p2 g).
Proof.
  intros xs xe slope c dy dx g P1 P2 N Pc Pdx Pdy H. unfold order_triangle in H.
  destruct (Reqb_spec dx 0); [lra|]. destruct (Reqb_spec dy 0); [lra|]. injection H as <-. cbn [g_p1 g_p2 g_text fst snd].
  assert (Pk : 0 < c - c / dx).
  { replace (c - c / dx) with (c * (1 - / dx)) by (field; lra). apply Rmult_lt_0_compat; [exact Pc|].
    assert (/ dx < / 1) by (apply Rinv_lt_contravar; lra). rewrite Rinv_1 in H. lra. }
  assert (Nl : ln xe - ln xs <> 0) by (intros E; apply N; apply ln_inv; auto; lra).
  split; [|repeat split].
  - rewrite !ln_mult by (try exact Pk; apply exp_pos). unfold Rpower. rewrite !ln_exp. field. exact Nl.
  - field. lra.
  - rewrite ln_exp. assert (Q : ln (xe / xs) = ln xe - ln xs) by (unfold Rdiv; rewrite ln_mult, ln_Rinv; try lra; apply Rinv_0_lt_compat; exact P1). rewrite Q. reflexivity.
  - field. lra.
Qed.
Print Assumptions C154_triangle.

(** The number in the label is the order only when the order is whole: 1.8 is labelled 1. *)
Theorem C154_label_iff : forall xs xe slope c dy dx g, 0 <= slope -> order_triangle xs xe slope c dy dx = Ok g ->
  (IZR (g_order g) = slope <-> exists z, slope = IZR z) /\ IZR (g_order g) <= slope < IZR (g_order g) + 1.
Proof.
  intros xs xe slope c dy dx g Ps H. unfold order_triangle in H. destruct (Reqb dx 0); [discriminate|]. destruct (Reqb dy 0); [discriminate|].
  injection H as <-. cbn [g_order]. unfold int_R. rewrite (Rleb_true 0 slope Ps). destruct (base_Int_part slope) as [A B]. split; [|lra].
  split; [intros E; exists (Int_part slope); auto|]. intros [z ->]. f_equal.
  assert (Q1 : (Int_part (IZR z) <= z)%Z) by (apply le_IZR; exact A).
  assert (Q2 : (z < Int_part (IZR z) + 1)%Z) by (apply lt_IZR; rewrite plus_IZR; lra). lia.
Qed.
Print Assumptions C154_label_iff.
Example C154_label_example : exists g, order_triangle 3 5 1.8 1 2 1.5 = Ok g /\ g_order g = 1%Z.
Proof.
  unfold order_triangle. destruct (Reqb_spec 1.5 0); [lra|]. destruct (Reqb_spec 2 0); [lra|]. eexists. split; [reflexivity|]. cbn [g_order].
  unfold int_R. rewrite Rleb_true by lra. unfold Int_part. rewrite <- (tech_up 1.8 2); [reflexivity| |]; cbn; lra.
Qed.

(** * The mean over directions *)

Lemma col_ok : forall (u : nat -> nat -> nat -> R) k j N sol,
  length sol = N -> (forall i, (i < N)%nat -> exists m row, nth_error sol i = Some m /\ nth_error m k = Some row /\ nth_error row j = Some (u i k j)) ->
  (fix col (l : list (list (list R))) : result (list R) :=
     match l with nil => Ok nil | m :: l' => row <- getitem m k ;; v <- getitem row j ;; r <- col l' ;; Ok (v :: r) end) sol
  = Ok (map (fun i => u i k j) (seq 0 N)).
Proof.
  intros u k j N sol. revert N u. induction sol as [|m sol IH]; intros N u L H; cbn in L; subst N; [reflexivity|].
  destruct (H 0%nat ltac:(lia)) as (m' & row & E1 & E2 & E3). cbn in E1. injection E1 as <-.
  unfold getitem at 1 2. rewrite E2. cbn [bind]. rewrite E3. cbn [bind].
  rewrite (IH (length sol) (fun i => u (S i)) eq_refl).
  - cbn [bind]. cbn [seq map]. rewrite <- seq_shift, map_map. reflexivity.
  - intros i Hi. exact (H (S i) ltac:(lia)).
Qed.
Lemma rsum_seq : forall g n, rsum (map g (seq 0 n)) = sumn n g.
Proof.
  intros g n. induction n as [|n IH]; [reflexivity|]. rewrite seq_S, map_app. cbn [sumn]. rewrite <- IH.
  unfold rsum. rewrite fold_right_app. cbn. generalize (map g (seq 0 n)). clear. intros l. induction l as [|a l IH]; cbn; [ring|]. rewrite IH. ring.
Qed.
Lemma map2_seq : forall (a b : nat -> R) n s, map2 Rmult (map a (seq s n)) (map b (seq s n)) = map (fun i => a i * b i) (seq s n).
Proof. intros a b n. induction n as [|n IH]; intros s; [reflexivity|]. cbn. rewrite IH. reflexivity. Qed.

(** Solution coefficients as a table: direction, cell, order. *)
Definition table (u : nat -> nat -> nat -> R) (N K J : nat) : list (list (list R)) :=
  map (fun i => map (fun k => map (fun j => u i k j) (seq 0 J)) (seq 0 K)) (seq 0 N).
Lemma nth_seq : forall {A} (g : nat -> A) n i, (i < n)%nat -> nth_error (map g (seq 0 n)) i = Some (g i).
Proof.
  intros A g n i Hi. rewrite nth_error_map. rewrite nth_error_nth' with (d := 0%nat) by (rewrite seq_length; exact Hi).
  rewrite seq_nth by exact Hi. reflexivity.
Qed.

(** For each order up to M the function returns the weighted mean over the directions of the coefficient in cell k. *)
Theorem C154_mean_coefficients : forall ws u N K M k, sumn N ws <> 0 -> (k < K)%nat ->
  coeff_con3 (map ws (seq 0 N)) (table u N K (M + 1)) M k
  = Ok (map (fun j => sumn N (fun i => ws i * u i k j) / sumn N ws) (seq 0 (M + 1))).
Proof.
  intros ws u N K M k HW Hk. unfold coeff_con3.
  assert (G : forall js, (forall j, In j js -> (j < M + 1)%nat) ->
    (fix go (js : list nat) : result (list R) :=
    match js with
    | nil => Ok nil
    | j :: js' =>
        col <- (fix col (l : list (list (list R))) : result (list R) :=
                  match l with nil => Ok nil
                  | m :: l' => row <- getitem m k ;; v <- getitem row j ;; r <- col l' ;; Ok (v :: r) end) (table u N K (M + 1)) ;;
        p <- vmul (map ws (seq 0 N)) col ;;
        if Reqb (rsum (map ws (seq 0 N))) 0 then Err NaN else
        r <- go js' ;; Ok (rsum p / rsum (map ws (seq 0 N)) :: r)
    end) js = Ok (map (fun j => sumn N (fun i => ws i * u i k j) / sumn N ws) js)).
  { induction js as [|j js IH]; intros Hj; [reflexivity|].
    rewrite (col_ok u k j N).
    - assert (Hv : vmul (map ws (seq 0 N)) (map (fun i => u i k j) (seq 0 N)) = Ok (map (fun i => ws i * u i k j) (seq 0 N))).
      { unfold vmul, vop. rewrite !map_length, Nat.eqb_refl, map2_seq. reflexivity. }
      cbn [bind]. rewrite Hv. cbn [bind]. rewrite IH by (intros; apply Hj; right; assumption). rewrite !rsum_seq.
      destruct (Reqb_spec (sumn N ws) 0); [contradiction|]. reflexivity.
    - unfold table. rewrite map_length, seq_length. reflexivity.
    - intros i Hi. unfold table. do 2 eexists. split; [apply nth_seq; exact Hi|]. split; [apply nth_seq; exact Hk|]. apply nth_seq. apply Hj. left. reflexivity. }
  apply G. intros j Hj. apply in_seq in Hj. lia.
Qed.
Print Assumptions C154_mean_coefficients.

(** With weights that are not negative the mean lies between the bounds of the coefficients. *)
Theorem C154_mean_between : forall ws (u : nat -> nat -> nat -> R) N k j lo hi, (forall i, (i < N)%nat -> 0 <= ws i /\ lo <= u i k j <= hi) -> 0 < sumn N ws ->
  lo <= sumn N (fun i => ws i * u i k j) / sumn N ws <= hi.
Proof.
  intros ws u N k j lo hi H P.
  assert (A : lo * sumn N ws <= sumn N (fun i => ws i * u i k j) <= hi * sumn N ws).
  { clear P. induction N as [|N IH]; cbn [sumn]; [lra|]. destruct (H N ltac:(lia)) as [W [L U]].
    specialize (IH ltac:(intros; apply H; lia)). nra. }
  split; apply Rmult_le_reg_r with (sumn N ws); try exact P; unfold Rdiv; rewrite Rmult_assoc, Rinv_l, Rmult_1_r by lra; lra.
Qed.
Print Assumptions C154_mean_between.

(** A coefficient array that still carries the row of the material energy does not fit the weights. *)
Theorem C154_material_row_is_rejected : forall ws u N K M k, (2 <= N)%nat -> (k < K)%nat ->
  coeff_con3 (map ws (seq 0 N)) (table u (N + 1) K (M + 1)) M k = Err ValueError.
Proof.
  intros ws u N K M k HN Hk. unfold coeff_con3. replace (seq 0 (M + 1)) with (0%nat :: seq 1 M) by (rewrite Nat.add_1_r; reflexivity).
  rewrite (col_ok u k 0 (N + 1)).
  - cbn [bind]. unfold vmul, vop. rewrite !map_length, !seq_length. destruct (Nat.eqb_spec N (N + 1)); [lia|].
    destruct N as [|[|N]]; try lia. rewrite Nat.add_1_r. reflexivity.
  - unfold table. rewrite map_length, seq_length. reflexivity.
  - intros i Hi. unfold table. do 2 eexists. split; [apply nth_seq; exact Hi|]. split; [apply nth_seq; exact Hk|]. apply nth_seq. lia.
Qed.
Print Assumptions C154_material_row_is_rejected.

(** With two axes the coefficients of cell k come back as they are. *)
Theorem C154_single_coefficients : forall (u : nat -> nat -> R) K M k, (k < K)%nat ->
  coeff_con2 (map (fun k => map (fun j => u k j) (seq 0 (M + 1))) (seq 0 K)) M k = Ok (map (fun j => u k j) (seq 0 (M + 1))).
Proof.
  intros u K M k Hk. unfold coeff_con2, getitem at 1. rewrite nth_seq by exact Hk. cbn [bind].
  assert (G : forall js, (forall j, In j js -> (j < M + 1)%nat) ->
    (fix go (js : list nat) : result (list R) :=
    match js with nil => Ok nil | j :: js' => v <- getitem (map (fun j => u k j) (seq 0 (M + 1))) j ;; r <- go js' ;; Ok (v :: r) end) js
    = Ok (map (fun j => u k j) js)).
  { induction js as [|j js IH]; intros Hj; [reflexivity|]. unfold getitem at 1. rewrite nth_seq by (apply Hj; left; reflexivity).
    cbn [bind]. rewrite IH by (intros; apply Hj; right; assumption). reflexivity. }
  apply G. intros j Hj. apply in_seq in Hj. lia.
Qed.
Print Assumptions C154_single_coefficients.
Example C154_mean_example : coeff_con3 [1; 3] [[[2; 0]]; [[6; 4]]] 1 0 = Ok [5; 3].
Proof.
  pose proof (C154_mean_coefficients (fun i => match i with O => 1 | _ => 3 end)
    (fun i _ j => match i, j with O, O => 2 | O, _ => 0 | _, O => 6 | _, _ => 4 end) 2 1 1 0) as H. cbn [sumn] in H.
  specialize (H ltac:(lra) ltac:(lia)). refine (eq_trans H _). cbn [map seq Nat.add]. repeat f_equal; field.
Qed.
