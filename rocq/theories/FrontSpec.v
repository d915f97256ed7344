(** Vocabulary of the statements about the front-tracking mesh (mesh.py 304-341). *)
From Verif Require Import Py PyLemmas MeshModel MeshSpec.

(** [linear xs ys t v]: v is the value at t of the broken line through the points (xs, ys) *)
Definition linear (xs ys : list R) (t v : R) : Prop :=
  exists i, (S i < length xs)%nat /\ nth i xs 0 <= t < nth (S i) xs 0 /\
    v = nth i ys 0 + (t - nth i xs 0) / (nth (S i) xs 0 - nth i xs 0) * (nth (S i) ys 0 - nth i ys 0).

(** the step of the velocity difference, mesh.py 334 *)
Definition delta : R := 1 / 10000000.
(** a time the record covers, with the step added *)
Definition in_record (c : cfg) (t : R) : Prop := 0 <= t /\ t + delta < nth (length (wave_t c) - 1) (wave_t c) 0.
(** a usable record of front positions: times increasing from 0 or earlier, one position per time *)
Definition record_ok (c : cfg) : Prop :=
  increasing (wave_t c) /\ length (wave_T c) = length (wave_t c) /\ nth 0 (wave_t c) 0 <= 0.
(** the configurations in which [move] follows the recorded front: a square source on a finite domain *)
Definition follows_front (c : cfg) : Prop :=
  (6 <= length (source_type c))%nat /\ slab c = true /\ st_is c 0 1 = false /\ st_is c 0 2 = false /\ st_is c 1 1 = false /\ st_is c 2 1 = true /\
  st_is c 3 1 = false /\ st_is c 5 1 = false /\ finite_domain c = true /\ move_func c = 1%nat /\ moving_flag c = true /\
  (12 <= N_space c)%nat /\ (N_space c mod 4 = 0)%nat /\ mesh_nodes_ok c /\ record_ok c.
(** mesh.py 202: the stop test has not fired *)
Definition running (c : cfg) (s : state) : Prop := nth (N_space c) (edges s) 0 < domain_width c / 2 - 1/100.
