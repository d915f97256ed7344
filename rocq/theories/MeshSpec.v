(** Vocabulary for the mesh theorems.  Independent of how the mesh computes its edges. *)
From Verif Require Import Py MeshModel.

(** All gaps between listed positions are positive (later entry, larger position). *)
Definition increasing (l : list R) : Prop :=
  forall i j, (i < j < length l)%nat -> nth i l 0 < nth j l 0.

(** A node set as an end-point-including Gauss rule on [-1,1] supplies it: n nodes from -1 to 1. *)
Definition nodes_ok (n : nat) (l : list R) : Prop :=
  length l = n /\ increasing l /\ nth 0 l 0 = -1 /\ nth (n - 1) l 0 = 1.
Definition nodes_sym (l : list R) : Prop :=
  forall i, (i < length l)%nat -> nth (length l - 1 - i) l 0 = - nth i l 0.

(** Mesh states that the integrator can be confronted with. *)
Definition reach (c : cfg) (ts : list R) (s : state) : Prop :=
  exists s0, init c = Ok s0 /\ moves c ts s0 = Ok s.

(** "Square" problem in slab geometry, thin: source_type selects the square initial condition [1] or
    the square source [2] and nothing else the mesh looks at. *)
Definition thin_square_slab (c : cfg) : Prop :=
  (6 <= length (source_type c))%nat /\ thick c = false /\ slab c = true /\
  st_is c 0 1 = false /\ st_is c 0 2 = false /\ st_is c 3 1 = false /\ st_is c 5 1 = false.
Definition square_ic_slab (c : cfg) : Prop := thin_square_slab c /\ st_is c 1 1 = true.
Definition square_src_slab (c : cfg) : Prop :=
  thin_square_slab c /\ st_is c 1 1 = false /\ st_is c 2 1 = true.
(** node arrays handed over by the solver for this cell count (main_functions.py 126-127) *)
Definition mesh_nodes_ok (c : cfg) : Prop :=
  nodes_ok (N_space c / 2 + 1) (thick_quad c) /\ nodes_ok (N_space c / 4 + 1) (thick_quad_edge c).

(** Thin shell / square problem in spherical geometry. *)
Definition square_ic_sphere (c : cfg) : Prop :=
  (6 <= length (source_type c))%nat /\ thick c = false /\ slab c = false /\
  st_is c 0 1 = false /\ st_is c 0 2 = false /\ st_is c 3 1 = false /\ st_is c 5 1 = false /\
  st_is c 1 1 = true.

(** Plane pulse ([1,...]) or dipole ([2,...]), thin. *)
Definition plane_thin (c : cfg) : Prop :=
  (6 <= length (source_type c))%nat /\ thick c = false /\
  (st_is c 0 1 = true \/ st_is c 0 2 = true) /\
  st_is c 1 1 = false /\ st_is c 2 1 = false /\ st_is c 3 1 = false /\ st_is c 5 1 = false.

(** Gaussian pulse or source, thin. *)
Definition gaussian_thin (c : cfg) : Prop :=
  (6 <= length (source_type c))%nat /\ thick c = false /\
  st_is c 0 1 = false /\ st_is c 0 2 = false /\ st_is c 1 1 = false /\ st_is c 2 1 = false /\
  (st_is c 3 1 = true \/ st_is c 5 1 = true).

(** A source the initialiser has no branch for: MMS ([..,1,..] at position 4), self-similar plane ([3,..]). *)
Definition unhandled_thin (c : cfg) : Prop :=
  (6 <= length (source_type c))%nat /\ thick c = false /\
  st_is c 0 1 = false /\ st_is c 0 2 = false /\ st_is c 1 1 = false /\ st_is c 2 1 = false /\
  st_is c 3 1 = false /\ st_is c 5 1 = false /\ all_zero c = false.

(** No volume source or pulse at all: boundary-driven problem, thin. *)
Definition boundary_thin (c : cfg) : Prop :=
  (6 <= length (source_type c))%nat /\ thick c = false /\ all_zero c = true.

(** The same settings with the moving switch set to [b]. *)
Definition with_moving (c : cfg) (b : bool) : cfg :=
  Cfg (N_space c) (x0 c) (tfinal c) b (move_type c) (source_type c) (edge_v c) (thick c)
      (move_factor c) (wave_t c) (wave_right c) (wave_T c) (pad c) (leader_pad c) (thick_quad c)
      (thick_quad_edge c) (finite_domain c) (domain_width c) (fake_sedov_v c) (t0 c) (slab c) (sphere c).

(** Width added outside the square source (slab) and outside the shell (sphere). *)
Definition dx_slab : R := 1 / 100.
Definition dx_shell : R := 1 / 100000.

(** Settings for which the slab square mesh theorems hold: cell count a positive multiple of four,
    end-point-including increasing node sets of the right size, moving. *)
Definition good_square (c : cfg) : Prop :=
  (4 <= N_space c)%nat /\ (N_space c mod 4 = 0)%nat /\ mesh_nodes_ok c /\ moving_flag c = true.


(** The mesh after any non-empty sequence of calls depends on the last time only. *)
Definition last_time_only (c : cfg) : Prop :=
  (forall ts t, exists s, reach c (ts ++ [t]) s) /\
  forall ts ts' t s s', reach c (ts ++ [t]) s -> reach c (ts' ++ [t]) s' -> edges s = edges s' /\ Dedges s = Dedges s'.

(** Concrete settings used by the examples: thin settings with equally spaced node sets *)
Definition wcfg (N : nat) (x tf : R) (mv : bool) (stp : list Z) (sl : bool) (fin : bool) (dw v0 : R) : cfg :=
  Cfg N x tf mv [true; false; false; false] stp 1 false 1 [] [] [] 5 1
      (linspace (-1) 1 (N / 2 + 1)) (linspace (-1) 1 (N / 4 + 1)) fin dw v0 1 sl (negb sl).
