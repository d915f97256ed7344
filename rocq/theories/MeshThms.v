(** C01 - C15: the mesh.  Every theorem quantifies over all settings meeting its hypotheses and over
    all sequences of move calls ([reach c ts s]: the object built from settings [c] is in state [s]
    after the calls move(t) for t in ts). *)
From Coquelicot Require Import Coquelicot.
From Verif Require Import Py PyLemmas MeshModel MeshSpec MeshProofs MeshSquare MeshSize MeshOther MeshFinite MeshFinal MeshSqrt.

(* ---------------------------------------------------------------- C01 *)
Theorem C01_static_mesh_never_changes : forall c s ts,
  moving_flag c = false -> init c = Ok s ->
  moves c ts s = Ok s /\ (forall d, In d (Dedges s) -> d = 0).
Proof. exact static_mesh_lemma. Qed.
Print Assumptions C01_static_mesh_never_changes.
Example C01_example : exists s, init (wcfg 2 1 1 false [0;0;0;0;0;0]%Z true false 4 0) = Ok s.
Proof.
  destruct (boundary_static_mid (wcfg 2 1 1 false [0;0;0;0;0;0]%Z true false 4 0)) as (s & H & _);
    [apply wboundary|cbn; lia|reflexivity|reflexivity|cbn; lra|eauto].
Qed.

(* ---------------------------------------------------------------- C02 *)
Theorem C02_static_is_moving_at_end : forall c s,
  thick c = false -> (all_zero c = true -> fake_sedov_v c = 0) ->
  init (with_moving c false) = Ok s ->
  exists s1 s2, init (with_moving c true) = Ok s1 /\
    move (with_moving c true) (tfinal c) s1 = Ok s2 /\ edges s2 = edges s.
Proof. exact static_final_lemma. Qed.
Print Assumptions C02_static_is_moving_at_end.
Example C02_example : let c := wcfg 2 1 1 true [0;0;0;0;0;0]%Z true false 4 0 in
  thick c = false /\ (all_zero c = true -> fake_sedov_v c = 0) /\ exists s, init (with_moving c false) = Ok s.
Proof.
  cbv zeta. split; [reflexivity|]. split; [reflexivity|].
  destruct (boundary_static_mid (wcfg 2 1 1 false [0;0;0;0;0;0]%Z true false 4 0)) as (s & H & _);
    [apply wboundary|cbn; lia|reflexivity|reflexivity|cbn; lra|exists s; exact H].
Qed.
Theorem C02_boundary_static_is_not_moving_refuted :
  exists c s s1 s2, boundary_thin c /\ init (with_moving c false) = Ok s /\ init (with_moving c true) = Ok s1 /\
    move (with_moving c true) (tfinal c) s1 = Ok s2 /\ edges s2 <> edges s.
Proof. exact static_final_witness. Qed.
Print Assumptions C02_boundary_static_is_not_moving_refuted.

(* ---------------------------------------------------------------- C03 *)
Theorem C03_square_mesh_size : forall c,
  square_ic_slab c -> good_square c -> finite_domain c = false ->
  forall ts t, exists s, reach c (ts ++ [t]) s /\
    length (edges s) = (N_space c + 1)%nat /\ length (Dedges s) = (N_space c + 1)%nat.
Proof. exact square_size_lemma. Qed.
Print Assumptions C03_square_mesh_size.
Example C03_example : let c := wcfg 8 (1/2) 1 true [0;1;0;0;0;0]%Z true false 4 0 in
  square_ic_slab c /\ good_square c /\ finite_domain c = false.
Proof. repeat split; try apply wsquare_ic; try reflexivity; apply wgood_square; auto; cbn; lia. Qed.
Theorem C03_square_mesh_bad_size_fails : forall c t,
  square_ic_slab c -> finite_domain c = false ->
  length (thick_quad c) = (N_space c / 2 + 1)%nat -> length (thick_quad_edge c) = (N_space c / 4 + 1)%nat ->
  (N_space c mod 4 <> 0)%nat ->
  exists e, (s <- init c ;; move c t s) = Err e.
Proof. exact square_bad_size_lemma. Qed.
Print Assumptions C03_square_mesh_bad_size_fails.
Example C03_bad_example : let c := wcfg 6 (1/2) 1 true [0;1;0;0;0;0]%Z true false 4 0 in
  square_ic_slab c /\ finite_domain c = false /\ length (thick_quad c) = (N_space c / 2 + 1)%nat /\
  length (thick_quad_edge c) = (N_space c / 4 + 1)%nat /\ (N_space c mod 4 <> 0)%nat.
Proof. repeat split; try apply wsquare_ic; try reflexivity. cbn. lia. Qed.
Theorem C03_two_cells_assertion : forall c t,
  square_ic_slab c -> N_space c = 2%nat -> (s <- init c ;; move c t s) = Err AssertionError.
Proof. exact N2_lemma. Qed.
Print Assumptions C03_two_cells_assertion.
(** The square *source* in an infinite domain does not fail: six edges for six cells, silently. *)
Theorem C03_source_wrong_size_is_silent_refuted :
  exists c s, square_src_slab c /\ finite_domain c = false /\ N_space c = 6%nat /\
    length (thick_quad c) = (N_space c / 2 + 1)%nat /\ length (thick_quad_edge c) = (N_space c / 4 + 1)%nat /\
    init c = Ok s /\ length (edges s) = 6%nat /\ forall ts, moves c ts s = Ok s.
Proof. exact square_source_silent_witness. Qed.
Print Assumptions C03_source_wrong_size_is_silent_refuted.

(* ---------------------------------------------------------------- C04 *)
Theorem C04_square_mesh_never_tangles : forall c,
  square_ic_slab c -> good_square c -> finite_domain c = false -> 0 < x0 c -> 0 <= speed c ->
  forall ts t, 0 <= t -> exists s, reach c (ts ++ [t]) s /\ increasing (edges s).
Proof. exact square_tangle_lemma. Qed.
Print Assumptions C04_square_mesh_never_tangles.
Example C04_example : let c := wcfg 8 (1/2) 1 true [0;1;0;0;0;0]%Z true false 4 0 in
  square_ic_slab c /\ good_square c /\ finite_domain c = false /\ 0 < x0 c /\ 0 <= speed c.
Proof.
  cbv zeta. rewrite wspeed_sq. repeat split; try apply wsquare_ic; try reflexivity; try (apply wgood_square; auto; cbn; lia); cbn; lra.
Qed.

(* ---------------------------------------------------------------- C05 *)
Theorem C05_interface_is_pinned : forall c,
  square_ic_slab c -> good_square c -> finite_domain c = false ->
  forall ts t, exists s, reach c (ts ++ [t]) s /\
    nth (N_space c / 4) (edges s) 0 = - x0 c /\ nth (3 * (N_space c / 4)) (edges s) 0 = x0 c /\
    (forall i, (N_space c / 4 <= i <= 3 * (N_space c / 4))%nat ->
       nth i (Dedges s) 0 = 0 /\
       forall ts' t' s', reach c (ts' ++ [t']) s' -> nth i (edges s') 0 = nth i (edges s) 0).
Proof. exact square_pinned_lemma. Qed.
Print Assumptions C05_interface_is_pinned.
Theorem C05_mesh_is_symmetric : forall c,
  square_ic_slab c -> good_square c -> finite_domain c = false ->
  nodes_sym (thick_quad c) -> nodes_sym (thick_quad_edge c) ->
  forall ts t s i, reach c (ts ++ [t]) s -> (i <= N_space c)%nat ->
   nth (N_space c - i) (edges s) 0 = - nth i (edges s) 0.
Proof. exact square_sym_lemma. Qed.
Print Assumptions C05_mesh_is_symmetric.
Example C05_example : let c := wcfg 8 (1/2) 1 true [0;1;0;0;0;0]%Z true false 4 0 in
  square_ic_slab c /\ good_square c /\ finite_domain c = false /\ nodes_sym (thick_quad c) /\ nodes_sym (thick_quad_edge c).
Proof.
  split; [apply wsquare_ic|]. split; [apply wgood_square; auto; cbn; lia|]. split; [reflexivity|].
  split; apply linspace_sym; cbn; lia.
Qed.

(* ---------------------------------------------------------------- C06 *)
Theorem C06_outer_edges : forall c,
  square_ic_slab c -> good_square c -> finite_domain c = false ->
  forall ts t, exists s, reach c (ts ++ [t]) s /\
    nth 0 (edges s) 0 = - (x0 c + 1/100 + speed c * t) /\
    nth (N_space c) (edges s) 0 = x0 c + 1/100 + speed c * t.
Proof. exact square_cone_lemma. Qed.
Print Assumptions C06_outer_edges.
Theorem C06_no_particle_leaves : forall c,
  square_ic_slab c -> good_square c -> finite_domain c = false -> speed c = 1 ->
  forall ts t s, 0 <= t -> reach c (ts ++ [t]) s ->
  forall x mu, - x0 c <= x <= x0 c -> -1 <= mu <= 1 ->
    nth 0 (edges s) 0 < x + mu * t < nth (N_space c) (edges s) 0.
Proof. exact square_particle_lemma. Qed.
Print Assumptions C06_no_particle_leaves.
Example C06_example : speed (wcfg 8 (1/2) 1 true [0;1;0;0;0;0]%Z true false 4 0) = 1.
Proof. apply wspeed_sq. Qed.

(* ---------------------------------------------------------------- C07 *)
Theorem C07_square_velocity : forall c,
  square_ic_slab c -> good_square c -> finite_domain c = false ->
  exists p : R -> nat -> R, forall ts t s i, reach c (ts ++ [t]) s -> (i <= N_space c)%nat ->
    nth i (edges s) 0 = p t i /\ is_derive (fun u => p u i) t (nth i (Dedges s) 0).
Proof. exact square_deriv_lemma. Qed.
Print Assumptions C07_square_velocity.
Theorem C07_shell_velocity : forall c,
  square_ic_sphere c -> (1 <= N_space c)%nat -> moving_flag c = true -> finite_domain c = false ->
  exists p : R -> nat -> R, forall ts t s i, reach c (ts ++ [t]) s -> (i <= N_space c)%nat ->
    nth i (edges s) 0 = p t i /\ is_derive (fun u => p u i) t (nth i (Dedges s) 0).
Proof. exact shell_deriv_lemma. Qed.
Print Assumptions C07_shell_velocity.
Theorem C07_plane_velocity : forall c,
  plane_thin c -> slab c = true -> (1 <= N_space c)%nat -> x0 c <> 0 -> moving_flag c = true ->
  exists p : R -> nat -> R, forall ts t s i, reach c (ts ++ [t]) s -> (i <= N_space c)%nat ->
    nth i (edges s) 0 = p t i /\ is_derive (fun u => p u i) t (nth i (Dedges s) 0).
Proof. exact plane_deriv_lemma. Qed.
Print Assumptions C07_plane_velocity.
Theorem C07_boundary_velocity : forall c,
  boundary_thin c -> (2 <= N_space c)%nat -> (N_space c mod 2 = 0)%nat -> moving_flag c = true -> 0 < tfinal c ->
  exists p : R -> nat -> R, forall ts t s i, reach c (ts ++ [t]) s -> (i <= N_space c)%nat ->
    nth i (edges s) 0 = p t i /\ is_derive (fun u => p u i) t (nth i (Dedges s) 0).
Proof. exact boundary_deriv_lemma. Qed.
Print Assumptions C07_boundary_velocity.
(** hypotheses are met, and states are reachable for every sequence of calls (C13) *)
Example C07_example :
  (let c := wcfg 4 1 1 true [1;0;0;0;0;0]%Z true false 4 0 in
   plane_thin c /\ slab c = true /\ (1 <= N_space c)%nat /\ x0 c <> 0 /\ moving_flag c = true) /\
  (let c := wcfg 5 1 1 true [0;1;0;0;0;0]%Z false false 4 0 in
   square_ic_sphere c /\ (1 <= N_space c)%nat /\ moving_flag c = true /\ finite_domain c = false).
Proof. cbv zeta. split; [split; [apply wplane|]|split; [apply wshell|]]; repeat split; cbn; try lra; lia. Qed.

(* ---------------------------------------------------------------- C08 *)
Theorem C08_gaussian_reports_velocity_but_rests : forall c,
  gaussian_thin c -> (1 <= N_space c)%nat -> 0 < x0 c -> moving_flag c = true -> slab c = true ->
  exists s0, init c = Ok s0 /\ edges s0 = linspace (- x0 c) (x0 c) (N_space c + 1) /\
    nth (N_space c) (Dedges s0) 0 = speed c /\ nth 0 (Dedges s0) 0 = - speed c /\
    forall ts, moves c ts s0 = Ok s0.
Proof. exact gaussian_full_lemma. Qed.
Print Assumptions C08_gaussian_reports_velocity_but_rests.
Theorem C08_square_source_reports_velocity_but_rests : forall c,
  square_src_slab c -> good_square c -> finite_domain c = false ->
  exists s0, init c = Ok s0 /\ nth 0 (Dedges s0) 0 = - speed c /\ nth (N_space c) (Dedges s0) 0 = speed c /\
    forall ts, moves c ts s0 = Ok s0.
Proof. exact src_infinite_lemma. Qed.
Print Assumptions C08_square_source_reports_velocity_but_rests.
Theorem C08_unhandled_source_mesh_is_a_point : forall c ts,
  unhandled_thin c ->
  exists s0, init c = Ok s0 /\ moves c ts s0 = Ok s0 /\ edges s0 = zeros (N_space c + 1) /\
    (forall d, In d (Dedges s0) -> d = 0).
Proof. exact unhandled_lemma. Qed.
Print Assumptions C08_unhandled_source_mesh_is_a_point.
Example C08_example :
  (let c := wcfg 4 1 1 true [0;0;0;1;0;0]%Z true false 4 0 in gaussian_thin c /\ 0 < x0 c /\ moving_flag c = true /\ slab c = true) /\
  (let c := wcfg 4 1 1 true [0;0;1;0;0;0]%Z true false 4 0 in square_src_slab c /\ good_square c /\ finite_domain c = false /\ speed c = 1) /\
  unhandled_thin (wcfg 4 1 1 true [0;0;0;0;1;0]%Z true false 4 0).
Proof.
  cbv zeta. split; [|split]; [split; [apply wgauss|]|split; [apply wsquare_src|]|apply wmms].
  - repeat split; cbn; lra.
  - split; [apply wgood_square; auto|]. split; [reflexivity|apply wspeed_src].
Qed.

(* ---------------------------------------------------------------- C09 *)
Theorem C09_plane_mesh_collapses_at_zero : forall c,
  plane_thin c -> slab c = true -> (1 <= N_space c)%nat -> x0 c <> 0 -> moving_flag c = true ->
  (forall ts, exists s, reach c (ts ++ [0]) s /\ length (edges s) = (N_space c + 1)%nat /\
     forall e, In e (edges s) -> e = 0) /\
  (forall ts t s i, reach c (ts ++ [t]) s -> (i <= N_space c)%nat -> nth i (edges s) 0 = nth i (Dedges s) 0 * t).
Proof. exact plane_collapse_lemma. Qed.
Print Assumptions C09_plane_mesh_collapses_at_zero.
Example C09_example : plane_thin (wcfg 4 1 1 true [1;0;0;0;0;0]%Z true false 4 0) /\ plane_thin (wcfg 3 1 1 true [1;0;0;0;0;0]%Z true false 4 0).
Proof. split; apply wplane. Qed.

(* ---------------------------------------------------------------- C10 *)
Theorem C10_shell_mesh : forall c,
  square_ic_sphere c -> (1 <= N_space c)%nat -> moving_flag c = true -> finite_domain c = false ->
  0 < x0 c -> 0 <= speed c ->
  forall ts t, 0 <= t -> exists s, reach c (ts ++ [t]) s /\ length (edges s) = (N_space c + 1)%nat /\
    increasing (edges s) /\ nth 0 (edges s) 0 = 0 /\
    nth (N_space c / 2 + 1) (edges s) 0 = x0 c /\
    (forall i, (i <= N_space c / 2 + 1)%nat -> nth i (Dedges s) 0 = 0) /\
    ((3 <= N_space c)%nat -> nth (N_space c) (edges s) 0 = x0 c + 1/100000 + speed c * t /\
                            nth (N_space c) (Dedges s) 0 = speed c) /\
    ((N_space c <= 2)%nat -> forall d, In d (Dedges s) -> d = 0).
Proof. exact shell_lemma. Qed.
Print Assumptions C10_shell_mesh.
Example C10_example : let c := wcfg 5 1 1 true [0;1;0;0;0;0]%Z false false 4 0 in
   square_ic_sphere c /\ (3 <= N_space c)%nat /\ moving_flag c = true /\ finite_domain c = false /\ 0 < x0 c /\ 0 <= speed c.
Proof. cbv zeta. rewrite wspeed_sq. split; [apply wshell|]; repeat split; cbn; try lra; lia. Qed.

(* ---------------------------------------------------------------- C11 *)
Theorem C11_boundary_mesh : forall c,
  boundary_thin c -> (2 <= N_space c)%nat -> (N_space c mod 2 = 0)%nat -> moving_flag c = true -> 0 < tfinal c ->
  forall ts t, exists s, reach c (ts ++ [t]) s /\ length (edges s) = (N_space c + 1)%nat /\
    nth 0 (edges s) 0 = - x0 c /\ nth (N_space c) (edges s) 0 = x0 c /\
    nth (N_space c / 2) (edges s) 0 = - fake_sedov_v c * t /\
    (0 <= t <= tfinal c -> Rabs (fake_sedov_v c) * tfinal c < x0 c -> increasing (edges s)).
Proof. exact boundary_lemma. Qed.
Print Assumptions C11_boundary_mesh.
Theorem C11_boundary_mesh_final_halves_uniform : forall c,
  boundary_thin c -> (2 <= N_space c)%nat -> (N_space c mod 2 = 0)%nat -> moving_flag c = true -> 0 < tfinal c ->
  forall ts s i, reach c (ts ++ [tfinal c]) s -> (S i <= N_space c)%nat ->
    nth (S i) (edges s) 0 - nth i (edges s) 0 =
    2 * (if (i <? N_space c / 2)%nat then x0 c - fake_sedov_v c * tfinal c else x0 c + fake_sedov_v c * tfinal c) / INR (N_space c).
Proof. exact boundary_final_lemma. Qed.
Print Assumptions C11_boundary_mesh_final_halves_uniform.
Theorem C11_boundary_mesh_odd_fails : forall c,
  boundary_thin c -> (3 <= N_space c)%nat -> (N_space c mod 2 = 1)%nat -> init c = Err ValueError.
Proof. exact boundary_odd_lemma. Qed.
Print Assumptions C11_boundary_mesh_odd_fails.
Example C11_example : let c := wcfg 4 1 1 true [0;0;0;0;0;0]%Z true false 4 (1/2) in
  boundary_thin c /\ (2 <= N_space c)%nat /\ (N_space c mod 2 = 0)%nat /\ moving_flag c = true /\ 0 < tfinal c /\
  Rabs (fake_sedov_v c) * tfinal c < x0 c.
Proof.
  cbv zeta. split; [apply wboundary|]. cbn [N_space moving_flag tfinal fake_sedov_v x0 wcfg].
  rewrite Rabs_right by lra. repeat split; try lia; lra.
Qed.

(* ---------------------------------------------------------------- C12 *)
Theorem C12_accelerating_mesh : forall c,
  square_src_slab c -> good_square c -> finite_domain c = true -> move_func c = 0%nat -> t0 c < tfinal c ->
  exists p v : R -> nat -> R,
    (forall ts s t, reach c ts s -> t0 c <= t ->
       nth (N_space c) (edges s) 0 < domain_width c / 2 - 1/100 ->
       exists s', move c t s = Ok s' /\ length (edges s') = (N_space c + 1)%nat /\
        forall i, (i <= N_space c)%nat -> nth i (edges s') 0 = p t i /\ nth i (Dedges s') 0 = v t i) /\
    (forall t i, is_derive (fun u => p u i) t (v t i)) /\
    (forall i, exists a, forall t, v t i = a * (t - t0 c) + v (t0 c) i) /\
    (forall i, (i <= N_space c)%nat -> p (tfinal c) i = - pad c + INR i * (2 * pad c / INR (N_space c))) /\
    (x0 c + 1/100 < domain_width c / 2 - 1/100 -> forall t, t < t0 c ->
       exists q : R -> nat -> R,
         (exists s', reach c [t] s' /\ forall i, (i <= N_space c)%nat -> nth i (edges s') 0 = q t i) /\
         (forall i u, is_derive (fun w => q w i) u (v (t0 c) i)) /\ forall i, p (t0 c) i = q (t0 c) i).
Proof. exact accel_lemma. Qed.
Print Assumptions C12_accelerating_mesh.
Example C12_example : let c := wcfg 4 (1/2) 2 true [0;0;1;0;0;0]%Z true true 100 0 in
  square_src_slab c /\ good_square c /\ finite_domain c = true /\ move_func c = 0%nat /\ t0 c < tfinal c /\
  x0 c + 1/100 < domain_width c / 2 - 1/100.
Proof.
  cbv zeta. split; [apply wsquare_src|]. split; [apply wgood_square; auto|]. repeat split; cbn; lra.
Qed.

(* ---------------------------------------------------------------- C13 *)
Theorem C13_square_history_free : forall c,
  square_ic_slab c -> good_square c -> finite_domain c = false -> last_time_only c.
Proof. exact square_hist. Qed.
Print Assumptions C13_square_history_free.
Theorem C13_shell_history_free : forall c,
  square_ic_sphere c -> (1 <= N_space c)%nat -> moving_flag c = true -> finite_domain c = false -> last_time_only c.
Proof. exact shell_hist. Qed.
Print Assumptions C13_shell_history_free.
Theorem C13_plane_history_free : forall c,
  plane_thin c -> slab c = true -> (1 <= N_space c)%nat -> x0 c <> 0 -> moving_flag c = true -> last_time_only c.
Proof. exact plane_hist. Qed.
Print Assumptions C13_plane_history_free.
Theorem C13_boundary_history_free : forall c,
  boundary_thin c -> (2 <= N_space c)%nat -> (N_space c mod 2 = 0)%nat -> moving_flag c = true -> 0 < tfinal c ->
  last_time_only c.
Proof. exact boundary_hist. Qed.
Print Assumptions C13_boundary_history_free.
Theorem C13_finite_domain_source_history_free_refuted :
  exists c t1 t2 s s', square_src_slab c /\ good_square c /\ finite_domain c = true /\ t0 c < tfinal c /\
    reach c [t1; t2] s /\ reach c [t2] s' /\ edges s <> edges s'.
Proof. exact accel_history_witness. Qed.
Print Assumptions C13_finite_domain_source_history_free_refuted.

(* ---------------------------------------------------------------- C14 *)
Theorem C14_frozen_after_reaching_the_domain_edge : forall c ts s ts' s',
  square_ic_slab c -> finite_domain c = true -> moving_flag c = true ->
  reach c ts s -> (exists r, getneg (edges s) 1 = Ok r /\ domain_width c / 2 - 1/100 <= r) ->
  ts' <> [] -> (forall t, In t ts' -> t <> tfinal c) -> moves c ts' s = Ok s' ->
  edges s' = edges s /\ forall d, In d (Dedges s') -> d = 0.
Proof. exact freeze_lemma. Qed.
Print Assumptions C14_frozen_after_reaching_the_domain_edge.
Theorem C14_jump_at_tfinal : forall c ts s,
  square_ic_slab c -> finite_domain c = true -> moving_flag c = true -> reach c ts s ->
  exists s', move c (tfinal c) s = Ok s' /\ Dedges s' = Dedges s /\
    edges s' = linspace (- domain_width c / 2) (domain_width c / 2) (N_space c + 1).
Proof. exact jump_lemma. Qed.
Print Assumptions C14_jump_at_tfinal.
Theorem C14_stopping_place_history_free_refuted :
  exists c t1 t2 s s', square_ic_slab c /\ good_square c /\ finite_domain c = true /\ t2 < tfinal c /\
    reach c [t1; t2] s /\ reach c [t2] s' /\ edges s <> edges s'.
Proof. exact stop_history_witness. Qed.
Print Assumptions C14_stopping_place_history_free_refuted.

(* ---------------------------------------------------------------- C15 *)
Theorem C15_sqrt_mesh : forall c,
  square_src_slab c -> good_square c -> finite_domain c = true -> move_func c = 2%nat ->
  exists p v : R -> nat -> R,
    (forall ts s t, reach c ts s -> nth (N_space c) (edges s) 0 < domain_width c / 2 - 1/100 ->
       exists s', move c t s = Ok s' /\ length (edges s') = (N_space c + 1)%nat /\
        (forall i, (i <= N_space c)%nat -> nth i (edges s') 0 = p t i /\ nth i (Dedges s') 0 = v t i) /\
        (0 < x0 c -> 0 <= speed c -> 0 <= move_factor c -> increasing (edges s'))) /\
    (forall t i, 1 / 10 ^ 10 < t -> is_derive (fun u => p u i) t (v t i)) /\
    (forall t i, t <= 1 / 10 ^ 10 -> p t i = p (1 / 10 ^ 10) i /\ v t i = v (1 / 10 ^ 10) i) /\
    (speed c * move_factor c <> 0 -> forall t, v t (N_space c) <> 0).
Proof. exact sqrt_mesh_lemma. Qed.
Print Assumptions C15_sqrt_mesh.
Definition sqrt_cfg : cfg :=
  Cfg 4 (1/2) 2 true [false; false; true; false] [0;0;1;0;0;0]%Z 1 false 1 [] [] [] 5 1
      (linspace (-1) 1 3) (linspace (-1) 1 2) true 100 0 1 true false.
Example C15_example : square_src_slab sqrt_cfg /\ good_square sqrt_cfg /\ finite_domain sqrt_cfg = true /\ move_func sqrt_cfg = 2%nat /\
  speed sqrt_cfg * move_factor sqrt_cfg <> 0.
Proof.
  split; [apply (wsquare_src 4 (1/2) 2 true true 100)|].
  split; [apply (wgood_square 4 (1/2) 2 [0;0;1;0;0;0]%Z true true 100 0); auto|].
  split; [reflexivity|]. split; [reflexivity|]. unfold speed, sqrt_cfg, all_zero. cbn. rewrite andb_false_r. lra.
Qed.
