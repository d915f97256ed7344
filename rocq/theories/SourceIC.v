(** Dependence on the source strength; initial conditions. *)
From Coquelicot Require Import Coquelicot.
From Verif Require Import Py PyLemmas Calc Legendre Cheb DGModel DGSpec DGProofs FuncModel FuncProofs FuncLobatto SourceModel SourceProofs SourceMore.
Local Open Scope R_scope.

Definition with_strength (c : scfg) (a : R) : scfg :=
  SCfg (sgeom c) (stype c) (uncollided c) (smoving c) (sM c) (sx0 c) (st0 c) (ssigma c) (ssigma_s c) a (sN_ang c) (squad c) (tquad c) (expi c) (erf c) (sedov c).
(** sources whose uncollided flux is multiplied by the strength twice *)
Definition twice (c : scfg) : bool :=
  match sgeom c with
  | Slab => negb (sty_is c 0 1) && (sty_is c 1 1 || negb (sty_is c 2 1) && sty_is c 3 1)
  | Sphere => false
  end.
Definition power (c : scfg) : nat := if twice c then 2 else 1.
Lemma uncollided_power c a x t : uncollided_solution (with_strength c a) x t = a ^ power c * uncollided_solution (with_strength c 1) x t.
Proof.
  unfold uncollided_solution, power, twice, sty_is, sty, sty_zero. cbn [uncollided sgeom stype with_strength strength_s sN_ang sedov].
  destruct (uncollided c); [|ring]. destruct (sgeom c).
  - destruct (_ =? 1)%Z; [unfold plane_IC_uncollided_solution; cbn; ring|]. cbn [negb andb].
    destruct (_ =? 1)%Z; [rewrite !square_IC_unit; cbn [orb sx0 strength_s with_strength pow]; ring|]. cbn [orb].
    destruct (_ =? 1)%Z; [destruct (_ =? 2)%nat; cbn [negb andb]; [unfold su_olson_s2_uncollided_solution|unfold square_source_uncollided_solution]; cbn; ring|]. cbn [negb andb].
    destruct (_ =? 1)%Z; [unfold gaussian_IC_uncollided_solution; cbn; ring|].
    destruct (_ =? 1)%Z; [destruct (_ =? 2)%nat; [unfold gaussian_s2, integrate_quad_time, gaussian_s2_thick_integrand|unfold gaussian_source_uncollided_solution, gaussian_source_integrand]; cbn; ring|].
    destruct (forallb _ _); cbn; ring.
  - destruct (_ =? 1)%Z; [cbn; ring|]. destruct (_ =? 1)%Z; [unfold shell_IC_uncollided_solution; cbn; ring|]. cbn. ring.
Qed.
Lemma src_quad_scale c c' xL xR j f g k : squad c = squad c' -> (forall x, f x = k * g x) -> src_quad c xL xR j f = k * src_quad c' xL xR j g.
Proof.
  intros E H. unfold src_quad. rewrite E.
  rewrite (qsum_ext _ _ (fun z => k * (let x := (xR - xL) / 2 * z + (xL + xR) / 2 in g x * normPn j x xL xR))) by (intro z; cbv zeta; rewrite H; ring).
  rewrite qsum_scal. ring.
Qed.
Lemma map_result_scale {A} (f g : A -> result R) k l : (forall x, f x = (y <- g x ;; Ok (k * y))) ->
  forall r, map_result f l = Ok r -> exists r', map_result g l = Ok r' /\ rsum r = k * rsum r'.
Proof.
  intro H. induction l as [|x l IH]; cbn [map_result]; intros r E.
  - injection E as <-. exists []. split; auto. cbn. ring.
  - rewrite H in E. destruct (g x) as [y|]; [|discriminate]. cbn [bind] in E. destruct (map_result f l) as [r1|]; [|discriminate]. cbn [bind] in E. injection E as <-.
    destruct (IH r1 eq_refl) as (r2 & -> & S). cbn [bind]. exists (y :: r2). split; auto. cbn [rsum fold_right]. unfold rsum in S |- *. cbn [fold_right]. rewrite S. ring.
Qed.
Lemma src_quad_sphere_scale c c' xL xR j f g k v : squad c = squad c' -> (forall x, f x = k * g x) -> src_quad_sphere c xL xR j f = Ok v ->
  exists v', src_quad_sphere c' xL xR j g = Ok v' /\ v = k * v'.
Proof.
  intros E H K. unfold src_quad_sphere in K |- *. rewrite <- E. match type of K with bind ?m _ = _ => destruct m as [r|] eqn:M; [|discriminate] end. cbn [bind] in K.
  eapply map_result_scale with (k := k) in M.
  2:{ intro p. cbv zeta. instantiate (1 := fun p => let x := (xR - xL) / 2 * fst p + (xL + xR) / 2 in T <- normTn j x xL xR ;; Ok (x ^ 2 * sqrt (1 - fst p ^ 2) * snd p * g x * 1 * T)).
      cbv beta zeta. destruct (normTn _ _ _ _); cbn [bind]; auto. rewrite H. f_equal. ring. }
  destruct M as (r' & M & S). cbv zeta in M. rewrite M. cbn [bind]. injection K as <-. rewrite S. eexists. split; [reflexivity|]. ring.
Qed.
Lemma seqM_scale n f g k v : (forall j w, f j = Ok w -> exists w', g j = Ok w' /\ w = k * w') -> seqM n f = Ok v ->
  exists v', seqM n g = Ok v' /\ forall j, v j = k * v' j.
Proof.
  intro H. revert v. induction n as [|n IH]; cbn [seqM]; intros v E.
  - injection E as <-. eexists. split; [reflexivity|]. intro. cbv beta. ring.
  - destruct (seqM n f) as [u|]; [|discriminate]. cbn [bind] in E. destruct (f n) as [w|] eqn:F; [|discriminate]. cbn [bind] in E. injection E as <-.
    destruct (IH u eq_refl) as (u' & -> & U). destruct (H n w F) as (w' & -> & W). cbn [bind]. eexists. split; [reflexivity|]. intro j. cbv beta.
    destruct (j =? n)%nat; auto.
Qed.
Lemma make_source_slab_power c a t xL xR S : sgeom c = Slab -> uncollided c = true -> sty_is c 0 1 && smoving c = false ->
  exists Sa S1, make_source (with_strength c a) t xL xR S = Ok Sa /\ make_source (with_strength c 1) t xL xR S = Ok S1 /\
    forall j, (j <= sM c)%nat -> Sa j = a ^ (1 + power c) * S1 j.
Proof.
  intros G U P. unfold make_source. cbn [sgeom uncollided with_strength smoving sM ssigma_s strength_s]. rewrite G, U.
  replace (sty_is (with_strength c a) 0 1) with (sty_is c 0 1) by reflexivity. replace (sty_is (with_strength c 1) 0 1) with (sty_is c 0 1) by reflexivity. rewrite P.
  cbn [bind]. do 2 eexists. split; [reflexivity|]. split; [reflexivity|]. intros j Hj. cbv beta. rewrite (proj2 (Nat.leb_le _ _) Hj).
  rewrite (src_quad_scale _ (with_strength c 1) xL xR j _ (fun x => uncollided_solution (with_strength c 1) x t) (a ^ power c)); [|reflexivity|intro; apply uncollided_power].
  cbn [pow Nat.add]. ring.
Qed.
Lemma make_source_plane_moving c a t xL xR : sgeom c = Slab -> uncollided c = true -> sty_is c 0 1 = true -> smoving c = true ->
  exists Sa, make_source (with_strength c a) t xL xR (fun _ => 0) = Ok Sa /\
    Sa 0%nat = a * ssigma_s c * (exp (- t) / (2 * t + sx0 c) * sqrt (xR - xL)) /\ forall j, (0 < j)%nat -> Sa j = 0.
Proof.
  intros G U P Mv. unfold make_source. cbn [sgeom uncollided with_strength smoving sM ssigma_s strength_s]. rewrite G, U, Mv.
  replace (sty_is (with_strength c a) 0 1) with (sty_is c 0 1) by reflexivity. rewrite P. cbn [bind andb]. eexists. split; [reflexivity|]. cbv beta.
  split; [cbn [Nat.eqb]; unfold plane_IC_uncollided_solution_integrated; cbn; ring|]. intros j Hj. destruct j; [lia|]. cbn [Nat.eqb]. ring.
Qed.
Lemma make_source_shell c a t xL xR S Sa : sgeom c = Sphere -> uncollided c = true -> sty_is c 0 1 = false -> sty_is c 1 1 = true ->
  make_source (with_strength c a) t xL xR S = Ok Sa -> exists S1, make_source (with_strength c 1) t xL xR S = Ok S1 /\ forall j, (j <= sM c)%nat -> Sa j = a ^ 2 * S1 j.
Proof.
  intros G U P0 P. unfold make_source. cbn [sgeom uncollided with_strength smoving sM ssigma_s strength_s]. rewrite G, U.
  replace (sty_is (with_strength c a) 1 1) with (sty_is c 1 1) by reflexivity. replace (sty_is (with_strength c 1) 1 1) with (sty_is c 1 1) by reflexivity. rewrite P. cbn [andb].
  destruct (seqM _ _) as [v|] eqn:E; [|discriminate]. cbn [bind]. intro K. injection K as <-.
  eapply (seqM_scale _ _ (fun j => src_quad_sphere (with_strength c 1) xL xR j (fun x => uncollided_solution (with_strength c 1) x t)) a) in E.
  2:{ intros j w W. eapply src_quad_sphere_scale; [|..|exact W]; [reflexivity|]. intro x. cbv beta. rewrite (uncollided_power c a). unfold power, twice. rewrite G. cbv beta iota. ring. }
  destruct E as (v' & E & V). rewrite E. cbn [bind]. eexists. split; [reflexivity|]. intros j Hj. cbv beta. rewrite (proj2 (Nat.leb_le _ _) Hj), V. ring.
Qed.
Lemma make_source_direct c a t xL xR S : uncollided c = false -> sgeom c = Slab -> sty_is c 2 1 || sty_is c 5 1 = true ->
  exists Sa S1, make_source (with_strength c a) t xL xR S = Ok Sa /\ make_source (with_strength c 1) t xL xR S = Ok S1 /\ forall j, (j <= sM c)%nat -> Sa j = a * S1 j.
Proof.
  intros U G H. unfold make_source. cbn [sgeom uncollided with_strength smoving sM ssigma_s strength_s]. rewrite G, U.
  replace (sty_is (with_strength c a) 2 1) with (sty_is c 2 1) by reflexivity. replace (sty_is (with_strength c 1) 2 1) with (sty_is c 2 1) by reflexivity.
  replace (sty_is (with_strength c a) 5 1) with (sty_is c 5 1) by reflexivity. replace (sty_is (with_strength c 1) 5 1) with (sty_is c 5 1) by reflexivity.
  destruct (sty_is c 2 1); [|destruct (sty_is c 5 1); [|discriminate]]; cbn [bind]; do 2 eexists; (split; [reflexivity|]); (split; [reflexivity|]); intros j Hj; cbv beta; rewrite (proj2 (Nat.leb_le _ _) Hj).
  all: [> change (src_quad (with_strength c a) xL xR j (fun x => square_source (with_strength c a) x t)) with (src_quad (with_strength c 1) xL xR j (fun x => square_source (with_strength c 1) x t))
  |change (src_quad (with_strength c a) xL xR j (fun x => gaussian_source (with_strength c a) x t)) with (src_quad (with_strength c 1) xL xR j (fun x => gaussian_source (with_strength c 1) x t))]; ring.
Qed.

(* ------------------------------------------------------------------ initial coefficients *)
Lemma map_result_all {A B} (f : A -> result B) (P : B -> Prop) l r : (forall x y, f x = Ok y -> P y) -> map_result f l = Ok r -> List.Forall P r.
Proof.
  intro H. revert r. induction l as [|x l IH]; cbn [map_result]; intros r E; [injection E as <-; constructor|].
  destruct (f x) as [y|] eqn:F; [|discriminate]. cbn [bind] in E. destruct (map_result f l) as [ys|]; [|discriminate]. cbn [bind] in E. injection E as <-.
  constructor; eauto.
Qed.
Lemma rsum_zero l : List.Forall (fun v => v = 0) l -> rsum l = 0.
Proof. induction 1 as [|x l -> H IH]; cbn; auto. unfold rsum in IH. rewrite IH. ring. Qed.
Lemma IC_function_uncollided c x0 x1 x mu : uncollided c = true -> IC_function c x0 x1 x mu = Ok 0.
Proof. intro U. unfold IC_function. rewrite U. now destruct (sgeom c). Qed.
Lemma ic_entry_zero c x0 x1 a b mu j v : uncollided c = true -> ic_entry c x0 x1 a b mu j = Ok v -> v = 0.
Proof.
  intros U. unfold ic_entry. destruct (sgeom c); (destruct (map_result _ (squad c)) as [r|] eqn:E; [|discriminate]); cbn [bind]; intro K; injection K as <-;
  (assert (Z : rsum r = 0); [|rewrite Z; ring]); apply rsum_zero; (eapply map_result_all; [|exact E]); cbv beta zeta; intros p y; rewrite (IC_function_uncollided _ _ _ _ _ U); cbn [bind].
  - intro K. injection K as <-. ring.
  - destruct (normTn _ _ _ _); [|discriminate]. cbn [bind]. intro K. injection K as <-. ring.
Qed.
Lemma seqM_all n f (P : R -> Prop) v : P 0 -> (forall j w, f j = Ok w -> P w) -> seqM n f = Ok v -> forall j, P (v j).
Proof.
  intros P0 H. revert v. induction n as [|n IH]; cbn [seqM]; intros v E; [injection E as <-; auto|].
  destruct (seqM n f) as [u|]; [|discriminate]. cbn [bind] in E. destruct (f n) as [w|] eqn:F; [|discriminate]. cbn [bind] in E. injection E as <-.
  intro j. cbv beta. destruct (j =? n)%nat; [eauto|]. now apply IH.
Qed.
Lemma ic_cells_zero c x0 x1 mu edges us : uncollided c = true -> ic_cells c x0 x1 mu edges = Ok us -> List.Forall (fun u => forall j, u j = 0) us.
Proof.
  intro U. revert us. induction edges as [|a [|b r] IH]; intros us E; try (injection E as <-; constructor).
  cbn [ic_cells] in E. fold (ic_cells c x0 x1 mu) in E. destruct (seqM _ _) as [u|] eqn:S; [|discriminate]. cbn [bind] in E.
  change (bind (ic_cells c x0 x1 mu (b :: r)) (fun us => Ok (u :: us)) = Ok us) in E.
  destruct (ic_cells c x0 x1 mu (b :: r)) as [vs|] eqn:V; [|discriminate]. cbn [bind] in E. injection E as <-. constructor; [|now apply IH].
  eapply (seqM_all _ _ (fun w => w = 0)); [reflexivity| |exact S]. intros j w. now apply ic_entry_zero.
Qed.
Lemma make_IC_zero c mus edges rows : uncollided c = true -> make_IC c mus edges = Ok rows ->
  List.Forall (List.Forall (fun u => forall j, u j = 0)) rows.
Proof.
  intros U. unfold make_IC. destruct (ic_x0 c edges) as [x0|]; [|discriminate]. cbn [bind]. destruct (ic_x1 c edges) as [x1|]; [|discriminate]. cbn [bind].
  intro E. eapply map_result_all; [|exact E]. intros mu us. now apply ic_cells_zero.
Qed.
Lemma map_result_total {A B} (f : A -> result B) l : (forall x, exists y, f x = Ok y) -> exists r, map_result f l = Ok r.
Proof.
  intro H. induction l as [|x l [r IH]]; cbn [map_result]; [eauto|]. destruct (H x) as [y ->]. rewrite IH. cbn [bind]. eauto.
Qed.
Lemma seqM_total n f : (forall j, (j < n)%nat -> exists y, f j = Ok y) -> exists v, seqM n f = Ok v.
Proof.
  induction n as [|n IH]; intro H; cbn [seqM]; [eauto|]. destruct IH as [v ->]; [intros; apply H; lia|]. destruct (H n) as [y ->]; [lia|]. cbn [bind]. eauto.
Qed.
Lemma make_IC_succeeds c mus edges : uncollided c = true -> (sgeom c = Sphere -> (sM c <= 12)%nat) -> exists rows, make_IC c mus edges = Ok rows.
Proof.
  intros U HM. unfold make_IC. unfold ic_x0, ic_x1. rewrite U. cbn [negb]. rewrite !Bool.andb_false_r. cbn [andb bind].
  apply map_result_total. intro mu. induction edges as [|a [|b r] IH]; cbn [ic_cells]; eauto.
  destruct (seqM_total (sM c + 1) (ic_entry c (sx0 c) 0 a b mu)) as [v ->].
  - intros j Hj. unfold ic_entry. destruct (sgeom c) eqn:G.
    + match goal with |- context [map_result ?f ?l] => destruct (map_result_total f l) as [w ->] end; [|cbn [bind]; eauto].
      intro p. cbv zeta. rewrite (IC_function_uncollided _ _ _ _ _ U). cbn [bind]. eauto.
    + match goal with |- context [map_result ?f ?l] => destruct (map_result_total f l) as [w ->] end; [|cbn [bind]; eauto].
      intro p. cbv zeta. rewrite (IC_function_uncollided _ _ _ _ _ U). cbn [bind]. unfold normTn, eval_Tn.
      specialize (HM eq_refl). do 13 (destruct j as [|j]; [cbn; eauto|]). lia.
  - cbn [bind]. fold (ic_cells c (sx0 c) 0 mu). destruct IH as [w E]. change (exists y, bind (ic_cells c (sx0 c) 0 mu (b :: r)) (fun us => Ok (v :: us)) = Ok y). rewrite E. cbn [bind]. eauto.
Qed.

(* ------------------------------------------------------------------ normalisation *)
Lemma greater_window a b x : a <= b -> greater x a - greater x b = ind (Rltb a x && Rleb x b).
Proof. intro H. unfold greater, ind. destruct (Rltb_spec a x); destruct (Rltb_spec b x); destruct (Rleb_spec x b); cbn [andb]; lra. Qed.
(** integral of [g] over the part of a window (a,b] inside [A,B] when the window lies inside *)
Lemma int_step (g : R -> R) A B a b l : A <= a -> a <= b -> b <= B -> is_RInt g a b l -> is_RInt (fun x => (greater x a - greater x b) * g x) A B l.
Proof.
  intros H1 H2 H3 H. replace l with (0 + (l + 0)) by ring.
  apply (int_chasles _ A a B); [|apply (int_chasles _ a b B)].
  - apply (int_ext_open (fun _ => 0)); auto; [|eapply int_eq; [apply int_const|ring]]. intros x Hx. rewrite greater_window by auto. unfold ind. rewrite Rltb_false by lra. cbn [andb]. ring.
  - apply (int_ext_open g); auto. intros x Hx. rewrite greater_window by auto. unfold ind. rewrite Rltb_true, Rleb_true by lra. cbn [andb]. ring.
  - apply (int_ext_open (fun _ => 0)); auto; [|eapply int_eq; [apply int_const|ring]]. intros x Hx. rewrite greater_window by auto. unfold ind. rewrite (Rleb_false x b) by lra. rewrite Bool.andb_false_r. ring.
Qed.
Lemma weighted_const ws v : rsum ws = 2 -> rsum (map (fun w => w * v) ws) = 2 * v.
Proof.
  intro H. rewrite <- H. clear H. induction ws as [|w ws IH]; cbn; [ring|]. unfold rsum in IH. rewrite IH. ring.
Qed.
Lemma plane_total c x0 L : 0 < x0 -> x0 <= L -> is_RInt (fun x => 2 * (plane_and_square_IC c x0 x / x0 / 2)) (- L) L (strength_s c).
Proof.
  intros H0 HL. apply (int_ext (fun x => (greater x (- x0) - greater x x0) * (strength_s c / (2 * x0)))).
  - intro x. unfold plane_and_square_IC. field. lra.
  - eapply (int_step (fun _ => strength_s c / (2 * x0))); try lra. eapply int_eq; [apply int_const|field; lra].
Qed.
Lemma plane_partial c x0 L : 0 < L -> L <= x0 -> is_RInt (fun x => 2 * (plane_and_square_IC c x0 x / x0 / 2)) (- L) L (strength_s c * (L / x0)).
Proof.
  intros H0 HL. apply (int_ext_open (fun x => strength_s c / (2 * x0))); [lra| |eapply int_eq; [apply int_const|field; lra]].
  intros x Hx. unfold plane_and_square_IC. rewrite greater_window by lra. unfold ind. rewrite Rltb_true, Rleb_true by lra. cbn [andb]. field. lra.
Qed.
Lemma square_total c x0 L : 0 < x0 -> x0 <= L -> is_RInt (fun x => 2 * plane_and_square_IC c x0 x) (- L) L (2 * x0 * strength_s c).
Proof.
  intros H0 HL. apply (int_ext (fun x => (greater x (- x0) - greater x x0) * strength_s c)).
  - intro x. unfold plane_and_square_IC. field.
  - eapply (int_step (fun _ => strength_s c)); try lra. eapply int_eq; [apply int_const|ring].
Qed.
Lemma int_r2 k L : is_RInt (fun r => k * r ^ 2) 0 L (k * L ^ 3 / 3).
Proof.
  eapply int_eq; [apply (int_ftc (fun r => k / 3 * (r * (r * r))))|cbv beta; field].
  - intro z. eapply dd_eq; [apply dd_scal, dd_mult; [apply dd_id|apply dd_mult; apply dd_id]|cbv beta; field].
  - intro z. apply (ex_derive_continuous (fun r => k * r ^ 2)). eexists. apply (dd_ext (fun r => k * (r * r))); [intro; ring|]. apply dd_scal, dd_mult; apply dd_id.
Qed.
Lemma shell_total c x0 L : 0 < x0 -> x0 <= L -> is_RInt (fun r => 4 * PI * r ^ 2 * (2 * shell_IC c x0 r)) 0 L (strength_s c).
Proof.
  intros H0 HL. pose proof PI_RGT_0. apply (int_ext (fun x => (greater x 0 - greater x x0) * ((3 * strength_s c / x0 ^ 3) * x ^ 2))).
  - intro x. unfold shell_IC. field. lra.
  - eapply (int_step (fun x => (3 * strength_s c / x0 ^ 3) * x ^ 2)); try lra. eapply int_eq; [apply int_r2|field; lra].
Qed.
Lemma point_total c x0 L : 0 < x0 -> x0 <= L -> is_RInt (fun r => 4 * PI * r ^ 2 * (2 * (point_pulse c x0 r / x0 ^ 3))) 0 L (8 * PI / 3 * strength_s c).
Proof.
  intros H0 HL. pose proof PI_RGT_0. apply (int_ext (fun x => (greater x 0 - greater x x0) * ((8 * PI * strength_s c / x0 ^ 3) * x ^ 2))).
  - intro x. unfold point_pulse. field. lra.
  - eapply (int_step (fun x => (8 * PI * strength_s c / x0 ^ 3) * x ^ 2)); try lra. eapply int_eq; [apply int_r2|field; lra].
Qed.
Lemma dipole_half c x1 L : x1 <> 0 -> Rabs x1 <= L ->
  is_RInt (fun x => 2 * (dipole c x1 x / Rabs x1)) 0 L (strength_s c) /\ is_RInt (fun x => 2 * (dipole c x1 x / Rabs x1)) (- L) 0 (- strength_s c).
Proof.
  intros H1 HL. assert (P : 0 < Rabs x1) by (now apply Rabs_pos_lt). set (w := Rabs x1) in *. split.
  - apply (int_ext_open (fun x => (greater x 0 - greater x w) * (strength_s c / w))); [lra| |].
    + intros x Hx. unfold dipole. cbv zeta. fold w. replace (greater x (- w) - greater x 0) with 0 by (unfold greater; rewrite !Rltb_true by lra; ring). field. lra.
    + eapply (int_step (fun _ => strength_s c / w)); try lra. eapply int_eq; [apply int_const|field; lra].
  - apply (int_ext_open (fun x => (greater x (- w) - greater x 0) * (- strength_s c / w))); [lra| |].
    + intros x Hx. unfold dipole. cbv zeta. fold w. replace (greater x 0 - greater x w) with 0 by (unfold greater; rewrite !Rltb_false by lra; ring). field. lra.
    + eapply (int_step (fun _ => - strength_s c / w)); try lra. eapply int_eq; [apply int_const|field; lra].
Qed.
(** static plane pulse on a uniform mesh *)
Definition uniform_edges (N : nat) (X : R) : list R := map (fun k => - X + 2 * X * INR k / INR N) (seq 0 (S N)).
Lemma uniform_get N X k : (k <= N)%nat -> getitem (uniform_edges N X) k = Ok (- X + 2 * X * INR k / INR N).
Proof.
  intro H. unfold getitem, uniform_edges. assert (E : nth_error (map (fun k => - X + 2 * X * INR k / INR N) (seq 0 (S N))) k = Some (- X + 2 * X * INR k / INR N)); [|now rewrite E].
  rewrite nth_error_map. rewrite (nth_error_nth' _ 0%nat) by (rewrite seq_length; lia). rewrite seq_nth by lia. reflexivity.
Qed.
Lemma static_plane_width c n X : (0 < n)%nat -> sgeom c = Slab -> smoving c = false -> uncollided c = false -> sty_is c 0 1 = true ->
  ic_x0 c (uniform_edges (2 * n) X) = Ok (2 * (2 * X / INR (2 * n))).
Proof.
  intros Hn G Mv U P. unfold ic_x0. replace (length (uniform_edges (2 * n) X) - 1)%nat with (2 * n)%nat by (unfold uniform_edges; rewrite map_length, seq_length; lia).
  rewrite Mv, U, P, G. assert (Ev : Nat.even (2 * n) = true) by (apply Nat.even_spec; exists n; reflexivity). rewrite Ev. cbn [negb andb].
  replace (2 * n / 2)%nat with n by (rewrite Nat.mul_comm, Nat.div_mul; lia). rewrite !uniform_get by lia. cbn [bind].
  f_equal. rewrite plus_INR, minus_INR by lia. change (INR 1) with 1. rewrite mult_INR. change (INR 2) with 2. apply lt_0_INR in Hn. field. lra.
Qed.
