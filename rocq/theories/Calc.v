(** Plain-real forms of Coquelicot's derivative, continuity and integral rules. *)
From Coq Require Export Reals Lra Lia List Arith Bool.
From Coquelicot Require Export Coquelicot.
Open Scope R_scope.

Lemma dd_eq (f : R -> R) (x l l' : R) : is_derive f x l -> l = l' -> is_derive f x l'.
Proof. intros H <-; auto. Qed.
Lemma dd_const (a x : R) : is_derive (fun _ : R => a) x 0.
Proof. apply (is_derive_const a). Qed.
Lemma dd_id (x : R) : is_derive (fun z : R => z) x 1.
Proof. apply (is_derive_id x). Qed.
Lemma dd_plus (f g : R -> R) (x a b : R) : is_derive f x a -> is_derive g x b -> is_derive (fun z => f z + g z) x (a + b).
Proof. intros; apply (is_derive_plus f g); auto. Qed.
Lemma dd_minus (f g : R -> R) (x a b : R) : is_derive f x a -> is_derive g x b -> is_derive (fun z => f z - g z) x (a - b).
Proof. intros; apply (is_derive_minus f g); auto. Qed.
Lemma dd_opp (f : R -> R) (x a : R) : is_derive f x a -> is_derive (fun z => - f z) x (- a).
Proof. intros; apply (is_derive_opp f); auto. Qed.
Lemma dd_mult (f g : R -> R) (x a b : R) : is_derive f x a -> is_derive g x b -> is_derive (fun z => f z * g z) x (a * g x + f x * b).
Proof. intros H1 H2. apply (is_derive_mult f g); auto. exact Rmult_comm. Qed.
Lemma dd_scal (f : R -> R) (k x a : R) : is_derive f x a -> is_derive (fun z => k * f z) x (k * a).
Proof. intros; apply (is_derive_scal f); auto. Qed.
Lemma dd_scal_r (f : R -> R) (k x a : R) : is_derive f x a -> is_derive (fun z => f z * k) x (a * k).
Proof. intros. apply (is_derive_ext (fun z => k * f z)); [intros; apply Rmult_comm|]. rewrite Rmult_comm. now apply dd_scal. Qed.
Lemma dd_divc (f : R -> R) (k x a : R) : is_derive f x a -> is_derive (fun z => f z / k) x (a / k).
Proof. intros; now apply dd_scal_r. Qed.
Lemma dd_div (f g : R -> R) (x a b : R) : is_derive f x a -> is_derive g x b -> g x <> 0 ->
  is_derive (fun z => f z / g z) x ((a * g x - f x * b) / (g x * g x)).
Proof. intros. eapply dd_eq; [apply (is_derive_div f g); eauto|]. field; auto. Qed.
Lemma dd_inv (g : R -> R) (x b : R) : is_derive g x b -> g x <> 0 -> is_derive (fun z => / g z) x (- b / (g x * g x)).
Proof. intros. eapply dd_eq; [apply (is_derive_inv g); eauto|]. field; auto. Qed.
Lemma dd_comp (f g : R -> R) (x a b : R) : is_derive f (g x) a -> is_derive g x b -> is_derive (fun z => f (g z)) x (b * a).
Proof. intros H1 H2. apply (is_derive_comp f g x a b H1 H2). Qed.
Lemma dd_sqrt (g : R -> R) (x b : R) : is_derive g x b -> 0 < g x -> is_derive (fun z => sqrt (g z)) x (b / (2 * sqrt (g x))).
Proof. intros. apply is_derive_sqrt; auto. Qed.
Lemma dd_exp (g : R -> R) (x b : R) : is_derive g x b -> is_derive (fun z => exp (g z)) x (b * exp (g x)).
Proof. intros. apply (dd_comp exp g); auto. apply is_derive_exp. Qed.
Lemma dd_ext (f g : R -> R) (x l : R) : (forall t, f t = g t) -> is_derive f x l -> is_derive g x l.
Proof. apply is_derive_ext. Qed.

Lemma cmult (f g : R -> R) z : continuous f z -> continuous g z -> continuous (fun z : R => f z * g z) z.
Proof. intros. apply (continuous_mult f g); auto. Qed.
Lemma cplus (f g : R -> R) z : continuous f z -> continuous g z -> continuous (fun z : R => f z + g z) z.
Proof. intros. apply (continuous_plus f g); auto. Qed.
Lemma cminus (f g : R -> R) z : continuous f z -> continuous g z -> continuous (fun z : R => f z - g z) z.
Proof. intros. apply (continuous_minus f g); auto. Qed.
Lemma copp (f : R -> R) z : continuous f z -> continuous (fun z : R => - f z) z.
Proof. intros. apply (continuous_opp f); auto. Qed.
Lemma cconst (a z : R) : continuous (fun _ : R => a) z. Proof. apply continuous_const. Qed.
Lemma cid (z : R) : continuous (fun z : R => z) z. Proof. apply continuous_id. Qed.
Lemma ccomp (f g : R -> R) z : continuous g z -> continuous f (g z) -> continuous (fun z : R => f (g z)) z.
Proof. intros. apply (continuous_comp g f); auto. Qed.
Lemma cexp (g : R -> R) z : continuous g z -> continuous (fun z : R => exp (g z)) z.
Proof. intros. apply (ccomp exp g); auto. apply continuous_exp. Qed.
Lemma cdivc (f : R -> R) k z : continuous f z -> continuous (fun z : R => f z / k) z.
Proof. intros. apply cmult; auto. apply cconst. Qed.
Lemma cpow (f : R -> R) n z : continuous f z -> continuous (fun z : R => f z ^ n) z.
Proof. intros. induction n; simpl; [apply cconst|now apply cmult]. Qed.
Global Hint Resolve cmult cplus cminus copp cconst cid cexp cdivc cpow : cont.

Lemma cont_of_derive (f : R -> R) (df : R -> R) : (forall z, is_derive f z (df z)) -> forall z, continuous f z.
Proof. intros H z. apply (ex_derive_continuous (V := R_NormedModule)). eexists; apply H. Qed.

Lemma ex_int (f : R -> R) (a b : R) : (forall z, continuous f z) -> ex_RInt f a b.
Proof. intros. apply (ex_RInt_continuous (V := R_CompleteNormedModule)). auto. Qed.
Lemma int_ftc (F f : R -> R) (a b : R) : (forall z, is_derive F z (f z)) -> (forall z, continuous f z) -> is_RInt f a b (F b - F a).
Proof. intros H1 H2. apply (is_RInt_derive (V := R_CompleteNormedModule) F f); auto. Qed.
Lemma int_plus (f g : R -> R) (a b l m : R) : is_RInt f a b l -> is_RInt g a b m -> is_RInt (fun z => f z + g z) a b (l + m).
Proof. intros; apply (is_RInt_plus f g); auto. Qed.
Lemma int_minus (f g : R -> R) (a b l m : R) : is_RInt f a b l -> is_RInt g a b m -> is_RInt (fun z => f z - g z) a b (l - m).
Proof. intros; apply (is_RInt_minus f g); auto. Qed.
Lemma int_scal (f : R -> R) (k a b l : R) : is_RInt f a b l -> is_RInt (fun z => k * f z) a b (k * l).
Proof. intros; apply (is_RInt_scal f); auto. Qed.
Lemma int_const (k a b : R) : is_RInt (fun _ => k) a b ((b - a) * k).
Proof. apply (is_RInt_const (V := R_NormedModule)). Qed.
Lemma int_ext (f g : R -> R) (a b l : R) : (forall z, f z = g z) -> is_RInt f a b l -> is_RInt g a b l.
Proof. intros H. apply is_RInt_ext. auto. Qed.
Lemma int_eq (f : R -> R) (a b l m : R) : is_RInt f a b l -> l = m -> is_RInt f a b m.
Proof. intros H <-; auto. Qed.
Lemma int_val (f : R -> R) (a b : R) : (forall z, continuous f z) -> is_RInt f a b (RInt f a b).
Proof. intros. apply (RInt_correct (V := R_CompleteNormedModule)). now apply ex_int. Qed.
Lemma int_uniq (f : R -> R) (a b l : R) : is_RInt f a b l -> RInt f a b = l.
Proof. apply (is_RInt_unique (V := R_CompleteNormedModule)). Qed.
Lemma int_uniq2 (f : R -> R) (a b l m : R) : is_RInt f a b l -> is_RInt f a b m -> l = m.
Proof. intros H1 H2. apply int_uniq in H1, H2. congruence. Qed.
(** change of variable z = u x + v *)
Lemma int_affine (f : R -> R) (u v a b l : R) : is_RInt f (u * a + v) (u * b + v) l -> is_RInt (fun x => u * f (u * x + v)) a b l.
Proof. intros; apply (is_RInt_comp_lin f u v); auto. Qed.
