(** The shipped configuration files, transcribed by tools/yaml2coq.py from the text in /repo. *)
From Coq Require Import String List ZArith.
From Verif Require Import ConfigModel.
Import ListNotations.
Open Scope string_scope.
Open Scope Z_scope.

(** moving_mesh_transport/input_scripts/mesh_parameters.yaml (1-31). *)
Definition yaml_mesh_parameters : yval :=
  YDict [("find_edges_tol", YFloat 1000000000 0);
    ("sqrt_t_move_factor", YFloat 62 (-1));
    ("save_wave_loc", YBool false);
    ("estimate_wavespeed", YBool false);
    ("find_wave_loc", YBool false);
    ("choose_xs", YBool false);
    ("pad", YFloat 3000 (-1));
    ("leader_pad", YFloat 25 (-3));
    ("xs_list", YList [YFloat 0 (-1); YFloat 5 (-1); YFloat 10 (-1); YFloat 15 (-1); YFloat 20 (-1); YFloat 25 (-1)]);
    ("xs_quad", YInt 25);
    ("eval_times", YBool false);
    ("eval_array", YList [YFloat 1 (-1); YFloat 25 (-2); YFloat 50 (-2); YFloat 75 (-2); YFloat 100 (-2)]);
    ("finite", YBool false);
    ("domain_width", YFloat 100 (-1));
    ("boundary_on", YList [YInt 0; YInt 0]);
    ("boundary_source_strength", YFloat 10 (-1));
    ("boundary_source", YBool false);
    ("boundary_source_loc", YList [YInt 10; YInt 0]);
    ("sigma_func", YDict [("constant", YBool true);
        ("linear", YBool false);
        ("siewert1", YBool false);
        ("siewert2", YBool false);
        ("gaussian", YBool false);
        ("f_sedov", YBool false)]);
    ("Msigma", YInt 0);
    ("fake_sedov_v0", YFloat 5 (-3))].

(** moving_mesh_transport/input_scripts/rad_transfer_const_cv.yaml (1-83). *)
Definition yaml_rad_transfer_const_cv : yval :=
  YDict [("all", YDict [("problem_name", YStr "rad_transfer_constant_cv");
        ("tfinal", YFloat 1000 (-1));
        ("sigma_t", YFloat 10 (-1));
        ("sigma_s", YFloat 10 (-1));
        ("c_scaling", YBool false);
        ("t0", YFloat 100 (-1));
        ("N_spaces", YList [YInt 32]);
        ("tnodes", YInt 40);
        ("Ms", YList [YInt 6]);
        ("N_runs", YInt 1);
        ("rt", YStr "5e-10");
        ("at", YStr "1e-8");
        ("mxstp", YFloat 10000 (-1));
        ("major", YStr "cells");
        ("radiative_transfer", YInt 1);
        ("temperature_dependence", YList [YInt 0; YInt 1; YInt 0; YInt 0]);
        ("e_initial", YFloat 1 (-11));
        ("weights", YStr "gauss_lobatto");
        ("save_solution", YBool true);
        ("particle_v", YStr "one");
        ("edge_v", YStr "one");
        ("cv_const", YFloat 3 (-2));
        ("estimate_wavespeed", YBool false);
        ("find_wave_loc", YBool false);
        ("thick", YBool false);
        ("integrator", YStr "DOP853")]);
    ("plane_IC", YDict [("x0", YList [YStr "1e-10"]);
        ("source_type", YList [YInt 1; YInt 0; YInt 0; YInt 0; YInt 0; YInt 0; YInt 0; YInt 0; YInt 0; YInt 0; YInt 0; YInt 0; YInt 0; YInt 0; YInt 0]);
        ("N_angles", YList [YInt 2; YInt 2; YInt 2]);
        ("move_type", YList [YInt 1; YInt 0]);
        ("benchmarking", YBool false)]);
    ("square_IC", YDict [("x0", YList [YFloat 5 (-1)]);
        ("source_type", YList [YInt 0; YInt 1; YInt 0; YInt 0; YInt 0; YInt 0; YInt 0; YInt 0; YInt 0; YInt 0; YInt 0; YInt 0; YInt 0; YInt 0; YInt 0]);
        ("N_angles", YList [YInt 128; YInt 256; YInt 256]);
        ("move_type", YList [YInt 1; YInt 0]);
        ("benchmarking", YBool false)]);
    ("square_source", YDict [("x0", YList [YFloat 5 (-1)]);
        ("source_strength", YFloat 10 (-1));
        ("source_type", YList [YInt 0; YInt 0; YInt 1; YInt 0; YInt 0; YInt 0; YInt 0; YInt 0; YInt 0; YInt 0; YInt 0; YInt 0; YInt 0; YInt 0; YInt 0]);
        ("N_angles", YList [YInt 256]);
        ("move_type", YList [YInt 1; YInt 0; YInt 0]);
        ("bench_type", YStr "Full");
        ("benchmarking", YBool false)]);
    ("gaussian_IC", YDict [("sigma", YFloat 5 (-1));
        ("x0", YList [YFloat 29 (-1); YFloat 29 (-1); YFloat 29 (-1); YFloat 29 (-1); YFloat 30 (-1); YFloat 28 (-1)]);
        ("source_type", YList [YInt 0; YInt 0; YInt 0; YInt 1; YInt 0; YInt 0; YInt 0; YInt 0; YInt 0; YInt 0; YInt 0; YInt 0; YInt 0; YInt 0; YInt 0]);
        ("N_angles", YList [YInt 64; YInt 256; YInt 256]);
        ("move_type", YList [YInt 1; YInt 0; YInt 0]);
        ("benchmarking", YBool false)]);
    ("gaussian_source", YDict [("source_strength", YFloat 10 (-1));
        ("sigma", YFloat 5 (-1));
        ("x0", YList [YInt 3; YFloat 29 (-1); YFloat 29 (-1); YFloat 29 (-1); YFloat 29 (-1)]);
        ("source_type", YList [YInt 0; YInt 0; YInt 0; YInt 0; YInt 0; YInt 1; YInt 0; YInt 0; YInt 0; YInt 0; YInt 0; YInt 0; YInt 0; YInt 0; YInt 0]);
        ("N_angles", YList [YInt 64]);
        ("move_type", YList [YInt 0; YInt 0; YInt 1]);
        ("bench_type", YStr "Full");
        ("benchmarking", YBool false)])].

(** moving_mesh_transport/input_scripts/rad_transfer_const_cv_s2.yaml (1-82). *)
Definition yaml_rad_transfer_const_cv_s2 : yval :=
  YDict [("all", YDict [("problem_name", YStr "rad_transfer_constant_cv_s2");
        ("tfinal", YFloat 316228 (-4));
        ("sigma_t", YFloat 10 (-1));
        ("sigma_s", YFloat 10 (-1));
        ("c_scaling", YBool false);
        ("t0", YFloat 100 (-1));
        ("N_spaces", YList [YInt 32]);
        ("tnodes", YInt 40);
        ("Ms", YList [YInt 0]);
        ("N_runs", YInt 1);
        ("rt", YStr "5e-13");
        ("at", YStr "1e-12");
        ("mxstp", YFloat 100 (-1));
        ("major", YStr "cells");
        ("radiative_transfer", YInt 1);
        ("temperature_dependence", YList [YInt 0; YInt 1; YInt 0; YInt 0]);
        ("e_initial", YFloat 1 (-11));
        ("weights", YStr "gauss_legendre");
        ("save_solution", YBool true);
        ("particle_v", YStr "sqrt_3");
        ("edge_v", YStr "sqrt_3");
        ("cv_const", YFloat 3 (-2));
        ("estimate_wavespeed", YBool false);
        ("find_wave_loc", YBool false);
        ("thick", YBool false);
        ("integrator", YStr "DOP853")]);
    ("plane_IC", YDict [("x0", YList [YStr "1e-10"]);
        ("source_type", YList [YInt 1; YInt 0; YInt 0; YInt 0; YInt 0; YInt 0; YInt 0; YInt 0; YInt 0; YInt 0; YInt 0; YInt 0; YInt 0; YInt 0; YInt 0]);
        ("N_angles", YList [YInt 2; YInt 2; YInt 2]);
        ("move_type", YList [YInt 1; YInt 0]);
        ("benchmarking", YBool false)]);
    ("square_IC", YDict [("x0", YList [YFloat 5 (-1)]);
        ("source_type", YList [YInt 0; YInt 1; YInt 0; YInt 0; YInt 0; YInt 0; YInt 0; YInt 0; YInt 0; YInt 0; YInt 0; YInt 0; YInt 0; YInt 0; YInt 0]);
        ("N_angles", YList [YInt 128; YInt 256; YInt 256]);
        ("move_type", YList [YInt 1; YInt 0]);
        ("benchmarking", YBool false)]);
    ("square_source", YDict [("x0", YList [YFloat 5 (-1)]);
        ("source_strength", YFloat 10 (-1));
        ("source_type", YList [YInt 0; YInt 0; YInt 1; YInt 0; YInt 0; YInt 0; YInt 0; YInt 0; YInt 0; YInt 0; YInt 0; YInt 0; YInt 0; YInt 0; YInt 0]);
        ("N_angles", YList [YInt 2]);
        ("move_type", YList [YInt 1; YInt 0; YInt 0]);
        ("bench_type", YStr "Full");
        ("benchmarking", YBool false)]);
    ("gaussian_IC", YDict [("sigma", YFloat 5 (-1));
        ("x0", YList [YFloat 29 (-1); YFloat 29 (-1); YFloat 29 (-1); YFloat 29 (-1); YFloat 30 (-1); YFloat 28 (-1)]);
        ("source_type", YList [YInt 0; YInt 0; YInt 0; YInt 1; YInt 0; YInt 0; YInt 0; YInt 0; YInt 0; YInt 0; YInt 0; YInt 0; YInt 0; YInt 0; YInt 0]);
        ("N_angles", YList [YInt 64; YInt 256; YInt 256]);
        ("move_type", YList [YInt 1; YInt 0; YInt 0]);
        ("benchmarking", YBool false)]);
    ("gaussian_source", YDict [("source_strength", YFloat 10 (-1));
        ("sigma", YFloat 5 (-1));
        ("x0", YList [YFloat 29 (-1); YFloat 29 (-1); YFloat 29 (-1); YFloat 29 (-1); YFloat 29 (-1)]);
        ("source_type", YList [YInt 0; YInt 0; YInt 0; YInt 0; YInt 0; YInt 1; YInt 0; YInt 0; YInt 0; YInt 0; YInt 0; YInt 0; YInt 0; YInt 0; YInt 0]);
        ("N_angles", YList [YInt 2]);
        ("move_type", YList [YInt 0; YInt 0; YInt 1]);
        ("bench_type", YStr "Full");
        ("benchmarking", YBool false)])].

(** moving_mesh_transport/input_scripts/rad_transfer_const_cv_thick.yaml (1-83). *)
Definition yaml_rad_transfer_const_cv_thick : yval :=
  YDict [("all", YDict [("problem_name", YStr "rad_transfer_constant_cv_thick");
        ("tfinal", YFloat 300 (-1));
        ("c_scaling", YBool false);
        ("sigma_t", YFloat 8000 (-1));
        ("sigma_s", YFloat 8000 (-1));
        ("t0", YFloat 125 (-4));
        ("N_spaces", YList [YInt 128]);
        ("tnodes", YInt 40);
        ("Ms", YList [YInt 10]);
        ("N_runs", YInt 1);
        ("rt", YStr "5e-12");
        ("at", YStr "1e-11");
        ("mxstp", YFloat 10000 (-1));
        ("major", YStr "cells");
        ("radiative_transfer", YInt 1);
        ("temperature_dependence", YList [YInt 0; YInt 1; YInt 0; YInt 0]);
        ("e_initial", YFloat 1 (-10));
        ("weights", YStr "gauss_lobatto");
        ("save_solution", YBool true);
        ("particle_v", YStr "one");
        ("edge_v", YStr "one");
        ("cv_const", YFloat 3 (-2));
        ("estimate_wavespeed", YBool false);
        ("find_wave_loc", YBool false);
        ("thick", YBool true);
        ("integrator", YStr "DOP853")]);
    ("plane_IC", YDict [("x0", YList [YStr "1e-10"]);
        ("source_type", YList [YInt 1; YInt 0; YInt 0; YInt 0; YInt 0; YInt 0; YInt 0; YInt 0; YInt 0; YInt 0; YInt 0; YInt 0; YInt 0; YInt 0; YInt 0]);
        ("N_angles", YList [YInt 2; YInt 2; YInt 2]);
        ("move_type", YList [YInt 1; YInt 0; YInt 0; YInt 0; YInt 0]);
        ("benchmarking", YBool false)]);
    ("square_IC", YDict [("x0", YList [YInt 400]);
        ("source_type", YList [YInt 0; YInt 1; YInt 0; YInt 0; YInt 0; YInt 0; YInt 0; YInt 0; YInt 0; YInt 0; YInt 0; YInt 0; YInt 0; YInt 0; YInt 0]);
        ("N_angles", YList [YInt 8]);
        ("move_type", YList [YInt 0; YInt 1; YInt 0]);
        ("benchmarking", YBool false)]);
    ("square_source", YDict [("x0", YList [YFloat 5 (-1)]);
        ("source_strength", YFloat 10 (-1));
        ("l", YFloat 125 (-5));
        ("source_type", YList [YInt 0; YInt 0; YInt 1; YInt 0; YInt 0; YInt 0; YInt 0; YInt 0; YInt 0; YInt 0; YInt 0; YInt 0; YInt 0; YInt 0; YInt 0]);
        ("N_angles", YList [YInt 16]);
        ("move_type", YList [YInt 0; YInt 0; YInt 1]);
        ("bench_type", YStr "Full");
        ("benchmarking", YBool false)]);
    ("gaussian_IC", YDict [("sigma", YInt 300);
        ("x0", YList [YInt 1700; YInt 1700; YInt 1700; YInt 1700; YInt 1700]);
        ("source_type", YList [YInt 0; YInt 0; YInt 0; YInt 1; YInt 0; YInt 0; YInt 0; YInt 0; YInt 0; YInt 0; YInt 0; YInt 0; YInt 0; YInt 0; YInt 0]);
        ("N_angles", YList [YInt 8; YInt 8; YInt 8]);
        ("move_type", YList [YInt 1; YInt 0; YInt 0; YInt 1; YInt 0]);
        ("benchmarking", YBool false)]);
    ("gaussian_source", YDict [("sigma", YFloat 375 (-3));
        ("l", YFloat 125 (-5));
        ("source_strength", YFloat 10 (-1));
        ("x0", YList [YFloat 50 (-1); YFloat 31 (-1); YFloat 31 (-1); YFloat 31 (-1); YFloat 31 (-1)]);
        ("source_type", YList [YInt 0; YInt 0; YInt 0; YInt 0; YInt 0; YInt 1; YInt 0; YInt 0; YInt 0; YInt 0; YInt 0; YInt 0; YInt 0; YInt 0; YInt 0]);
        ("N_angles", YList [YInt 16]);
        ("move_type", YList [YInt 1; YInt 0; YInt 0]);
        ("bench_type", YStr "Full");
        ("benchmarking", YBool false)])].

(** moving_mesh_transport/input_scripts/rad_transfer_const_cv_thick_s2.yaml (1-84). *)
Definition yaml_rad_transfer_const_cv_thick_s2 : yval :=
  YDict [("all", YDict [("problem_name", YStr "rad_transfer_constant_cv_thick_s2");
        ("tfinal", YFloat 316228 (-4));
        ("sigma_t", YFloat 8000 (-1));
        ("sigma_s", YFloat 8000 (-1));
        ("c_scaling", YBool false);
        ("t0", YFloat 125 (-4));
        ("N_spaces", YList [YInt 8]);
        ("tnodes", YInt 40);
        ("Ms", YList [YInt 0]);
        ("N_runs", YInt 1);
        ("rt", YStr "5e-11");
        ("at", YStr "1e-9");
        ("mxstp", YFloat 10000 0);
        ("major", YStr "cells");
        ("radiative_transfer", YInt 1);
        ("temperature_dependence", YList [YInt 0; YInt 1; YInt 0; YInt 0]);
        ("e_initial", YFloat 1 (-10));
        ("weights", YStr "gauss_legendre");
        ("save_solution", YBool true);
        ("particle_v", YStr "sqrt_3");
        ("edge_v", YStr "sqrt_3");
        ("cv_const", YFloat 3 (-2));
        ("estimate_wavespeed", YBool false);
        ("find_wave_loc", YBool false);
        ("thick", YBool true);
        ("integrator", YStr "DOP853")]);
    ("plane_IC", YDict [("x0", YList [YStr "1e-10"]);
        ("source_type", YList [YInt 1; YInt 0; YInt 0; YInt 0; YInt 0; YInt 0; YInt 0; YInt 0; YInt 0; YInt 0; YInt 0; YInt 0; YInt 0; YInt 0; YInt 0]);
        ("N_angles", YList [YInt 2; YInt 2; YInt 2]);
        ("move_type", YList [YInt 1; YInt 0; YInt 0; YInt 0; YInt 0]);
        ("benchmarking", YBool false)]);
    ("square_IC", YDict [("x0", YList [YInt 400]);
        ("source_type", YList [YInt 0; YInt 1; YInt 0; YInt 0; YInt 0; YInt 0; YInt 0; YInt 0; YInt 0; YInt 0; YInt 0; YInt 0; YInt 0; YInt 0; YInt 0]);
        ("N_angles", YList [YInt 8]);
        ("move_type", YList [YInt 0; YInt 0; YInt 0; YInt 0; YInt 1]);
        ("benchmarking", YBool false)]);
    ("square_source", YDict [("x0", YList [YFloat 5 (-1)]);
        ("source_strength", YFloat 10 (-1));
        ("source_type", YList [YInt 0; YInt 0; YInt 1; YInt 0; YInt 0; YInt 0; YInt 0; YInt 0; YInt 0; YInt 0; YInt 0; YInt 0; YInt 0; YInt 0; YInt 0]);
        ("N_angles", YList [YInt 2]);
        ("move_type", YList [YInt 0; YInt 0; YInt 1]);
        ("bench_type", YStr "Full");
        ("benchmarking", YBool false)]);
    ("gaussian_IC", YDict [("sigma", YFloat 375 (-3));
        ("x0", YList [YInt 1700; YInt 1700; YInt 1700; YInt 1700; YInt 1700]);
        ("source_type", YList [YInt 0; YInt 0; YInt 0; YInt 1; YInt 0; YInt 0; YInt 0; YInt 0; YInt 0; YInt 0; YInt 0; YInt 0; YInt 0; YInt 0; YInt 0]);
        ("N_angles", YList [YInt 8; YInt 8; YInt 8]);
        ("move_type", YList [YInt 1; YInt 0; YInt 0; YInt 1; YInt 0]);
        ("benchmarking", YBool false)]);
    ("gaussian_source", YDict [("sigma", YFloat 375 (-3));
        ("source_strength", YFloat 10 (-1));
        ("l", YFloat 125 (-5));
        ("x0", YList [YFloat 75 (-1)]);
        ("source_type", YList [YInt 0; YInt 0; YInt 0; YInt 0; YInt 0; YInt 1; YInt 0; YInt 0; YInt 0; YInt 0; YInt 0; YInt 0; YInt 0; YInt 0; YInt 0]);
        ("N_angles", YList [YInt 2]);
        ("move_type", YList [YInt 1; YInt 0; YInt 0]);
        ("bench_type", YStr "Full");
        ("benchmarking", YBool false)])].

(** moving_mesh_transport/input_scripts/su_olson.yaml (1-83). *)
Definition yaml_su_olson : yval :=
  YDict [("all", YDict [("problem_name", YStr "su_olson");
        ("tfinal", YFloat 1000 (-1));
        ("sigma_t", YFloat 10 (-1));
        ("sigma_s", YFloat 10 (-1));
        ("c_scaling", YBool false);
        ("t0", YFloat 100 (-1));
        ("N_spaces", YList [YInt 32]);
        ("tnodes", YInt 40);
        ("Ms", YList [YInt 0]);
        ("N_runs", YInt 1);
        ("rt", YStr "5e-11");
        ("at", YStr "1e-9");
        ("mxstp", YFloat 100000 0);
        ("major", YStr "cells");
        ("radiative_transfer", YInt 1);
        ("temperature_dependence", YList [YInt 1; YInt 0; YInt 0; YInt 0]);
        ("e_initial", YFloat 1 (-9));
        ("weights", YStr "gauss_lobatto");
        ("save_solution", YBool false);
        ("particle_v", YStr "one");
        ("edge_v", YStr "one");
        ("cv_const", YFloat 0 (-1));
        ("estimate_wavespeed", YBool false);
        ("thick", YBool false);
        ("integrator", YStr "DOP853")]);
    ("plane_IC", YDict [("x0", YStr "1e-10");
        ("source_type", YList [YInt 1; YInt 0; YInt 0; YInt 0; YInt 0; YInt 0; YInt 0; YInt 0; YInt 0; YInt 0; YInt 0; YInt 0; YInt 0; YInt 0; YInt 0]);
        ("N_angles", YList [YInt 2; YInt 2; YInt 2]);
        ("move_type", YList [YInt 1; YInt 0; YInt 0]);
        ("benchmarking", YBool false)]);
    ("square_IC", YDict [("x0", YList [YFloat 5 (-1)]);
        ("source_type", YList [YInt 0; YInt 1; YInt 0; YInt 0; YInt 0; YInt 0; YInt 0; YInt 0; YInt 0; YInt 0; YInt 0; YInt 0; YInt 0; YInt 0; YInt 0]);
        ("N_angles", YList [YInt 128; YInt 256; YInt 256]);
        ("move_type", YList [YInt 1; YInt 0; YInt 0]);
        ("benchmarking", YBool false)]);
    ("square_source", YDict [("x0", YList [YFloat 5 (-1)]);
        ("source_strength", YFloat 10 (-1));
        ("source_type", YList [YInt 0; YInt 0; YInt 1; YInt 0; YInt 0; YInt 0; YInt 0; YInt 0; YInt 0; YInt 0; YInt 0; YInt 0; YInt 0; YInt 0; YInt 0]);
        ("N_angles", YList [YInt 256]);
        ("move_type", YList [YInt 1; YInt 0; YInt 0]);
        ("bench_type", YStr "full");
        ("benchmarking", YBool false)]);
    ("gaussian_IC", YDict [("sigma", YFloat 5 (-1));
        ("x0", YList [YFloat 29 (-1); YFloat 29 (-1); YFloat 29 (-1); YFloat 29 (-1); YFloat 30 (-1); YFloat 28 (-1)]);
        ("source_type", YList [YInt 0; YInt 0; YInt 0; YInt 1; YInt 0; YInt 0; YInt 0; YInt 0; YInt 0; YInt 0; YInt 0; YInt 0; YInt 0; YInt 0; YInt 0]);
        ("N_angles", YList [YInt 64; YInt 256; YInt 256]);
        ("move_type", YList [YInt 1; YInt 0; YInt 0]);
        ("benchmarking", YBool false)]);
    ("gaussian_source", YDict [("sigma", YFloat 5 (-1));
        ("source_strength", YFloat 10 (-1));
        ("x0", YList [YInt 3; YInt 3; YInt 3; YInt 3; YInt 3]);
        ("source_type", YList [YInt 0; YInt 0; YInt 0; YInt 0; YInt 0; YInt 1; YInt 0; YInt 0; YInt 0; YInt 0; YInt 0; YInt 0; YInt 0; YInt 0; YInt 0]);
        ("N_angles", YList [YInt 64]);
        ("move_type", YList [YInt 0; YInt 0; YInt 1]);
        ("bench_type", YStr "S2");
        ("benchmarking", YBool false)])].

(** moving_mesh_transport/input_scripts/su_olson_s2.yaml (1-83). *)
Definition yaml_su_olson_s2 : yval :=
  YDict [("all", YDict [("problem_name", YStr "su_olson_s2");
        ("tfinal", YFloat 1000 (-1));
        ("c_scaling", YBool false);
        ("sigma_t", YFloat 10 (-1));
        ("sigma_s", YFloat 10 (-1));
        ("t0", YFloat 100 (-1));
        ("N_spaces", YList [YInt 32]);
        ("tnodes", YInt 40);
        ("Ms", YList [YInt 8]);
        ("N_runs", YInt 1);
        ("rt", YStr "5e-11");
        ("at", YStr "1e-9");
        ("mxstp", YFloat 1 0);
        ("major", YStr "cells");
        ("radiative_transfer", YInt 1);
        ("temperature_dependence", YList [YInt 1; YInt 0; YInt 0; YInt 0]);
        ("e_initial", YFloat 1 (-15));
        ("weights", YStr "gauss_legendre");
        ("save_solution", YBool false);
        ("particle_v", YStr "sqrt_3");
        ("edge_v", YStr "sqrt_3");
        ("cv_const", YFloat 0 (-1));
        ("estimate_wavespeed", YBool true);
        ("thick", YBool false);
        ("integrator", YStr "DOP853")]);
    ("plane_IC", YDict [("x0", YStr "1e-10");
        ("source_strength", YFloat 10 (-1));
        ("source_type", YList [YInt 1; YInt 0; YInt 0; YInt 0; YInt 0; YInt 0; YInt 0; YInt 0; YInt 0; YInt 0; YInt 0; YInt 0; YInt 0; YInt 0; YInt 0]);
        ("N_angles", YList [YInt 2; YInt 2; YInt 2]);
        ("move_type", YList [YInt 1; YInt 0; YInt 0; YInt 0; YInt 0]);
        ("benchmarking", YBool false)]);
    ("square_IC", YDict [("x0", YList [YInt 400]);
        ("source_strength", YFloat 10 (-1));
        ("source_type", YList [YInt 0; YInt 1; YInt 0; YInt 0; YInt 0; YInt 0; YInt 0; YInt 0; YInt 0; YInt 0; YInt 0; YInt 0; YInt 0; YInt 0; YInt 0]);
        ("N_angles", YList [YInt 2; YInt 2; YInt 2; YInt 2; YInt 2]);
        ("move_type", YList [YInt 0; YInt 1; YInt 0; YInt 0; YInt 0]);
        ("benchmarking", YBool false)]);
    ("square_source", YDict [("x0", YList [YFloat 5 (-1)]);
        ("source_strength", YFloat 10 (-1));
        ("source_type", YList [YInt 0; YInt 0; YInt 1; YInt 0; YInt 0; YInt 0; YInt 0; YInt 0; YInt 0; YInt 0; YInt 0; YInt 0; YInt 0; YInt 0; YInt 0]);
        ("N_angles", YList [YInt 2]);
        ("move_type", YList [YInt 1; YInt 0; YInt 0]);
        ("bench_type", YStr "S2");
        ("benchmarking", YBool true)]);
    ("gaussian_IC", YDict [("sigma", YFloat 5 (-1));
        ("source_strength", YFloat 10 (-1));
        ("x0", YList [YFloat 29 (-1); YFloat 29 (-1); YFloat 29 (-1); YFloat 29 (-1); YFloat 30 (-1); YFloat 28 (-1)]);
        ("source_type", YList [YInt 0; YInt 0; YInt 0; YInt 1; YInt 0; YInt 0; YInt 0; YInt 0; YInt 0; YInt 0; YInt 0; YInt 0; YInt 0; YInt 0; YInt 0]);
        ("N_angles", YList [YInt 2; YInt 2; YInt 2; YInt 2; YInt 2]);
        ("move_type", YList [YInt 1; YInt 0; YInt 0; YInt 1; YInt 0]);
        ("benchmarking", YBool false)]);
    ("gaussian_source", YDict [("sigma", YFloat 5 (-1));
        ("source_strength", YFloat 10 (-1));
        ("x0", YList [YInt 3; YInt 3; YFloat 35 (-1)]);
        ("source_type", YList [YInt 0; YInt 0; YInt 0; YInt 0; YInt 0; YInt 1; YInt 0; YInt 0; YInt 0; YInt 0; YInt 0; YInt 0; YInt 0; YInt 0; YInt 0]);
        ("N_angles", YList [YInt 2]);
        ("move_type", YList [YInt 1; YInt 0; YInt 0]);
        ("bench_type", YStr "S2");
        ("benchmarking", YBool true)])].

(** moving_mesh_transport/input_scripts/su_olson_thick.yaml (1-83). *)
Definition yaml_su_olson_thick : yval :=
  YDict [("all", YDict [("problem_name", YStr "su_olson_thick");
        ("tfinal", YFloat 3 (-1));
        ("c_scaling", YBool false);
        ("sigma_t", YFloat 8000 (-1));
        ("sigma_s", YFloat 8000 (-1));
        ("t0", YFloat 125 (-4));
        ("N_spaces", YList [YInt 128]);
        ("tnodes", YInt 40);
        ("Ms", YList [YInt 10]);
        ("N_runs", YInt 1);
        ("rt", YStr "5e-11");
        ("at", YStr "1e-9");
        ("mxstp", YFloat 10000 0);
        ("major", YStr "cells");
        ("radiative_transfer", YInt 1);
        ("temperature_dependence", YList [YInt 1; YInt 0; YInt 0; YInt 0]);
        ("e_initial", YFloat 1 (-10));
        ("weights", YStr "gauss_lobatto");
        ("save_solution", YBool true);
        ("particle_v", YStr "one");
        ("edge_v", YStr "one");
        ("cv_const", YFloat 0 (-1));
        ("estimate_wavespeed", YBool false);
        ("thick", YBool true);
        ("integrator", YStr "RK45")]);
    ("plane_IC", YDict [("x0", YStr "1e-10");
        ("source_type", YList [YInt 1; YInt 0; YInt 0; YInt 0; YInt 0; YInt 0; YInt 0; YInt 0; YInt 0; YInt 0; YInt 0; YInt 0; YInt 0; YInt 0; YInt 0]);
        ("N_angles", YList [YInt 8; YInt 8; YInt 8; YInt 8; YInt 8]);
        ("move_type", YList [YInt 1; YInt 0; YInt 0; YInt 0; YInt 0]);
        ("benchmarking", YBool false)]);
    ("square_IC", YDict [("x0", YList [YInt 400]);
        ("source_type", YList [YInt 0; YInt 1; YInt 0; YInt 0; YInt 0; YInt 0; YInt 0; YInt 0; YInt 0; YInt 0; YInt 0; YInt 0; YInt 0; YInt 0; YInt 0]);
        ("N_angles", YList [YInt 8]);
        ("move_type", YList [YInt 0; YInt 1; YInt 0; YInt 0; YInt 0]);
        ("benchmarking", YBool false)]);
    ("square_source", YDict [("x0", YList [YFloat 5 (-1)]);
        ("source_strength", YFloat 10 (-1));
        ("l", YFloat 125 (-5));
        ("source_type", YList [YInt 0; YInt 0; YInt 1; YInt 0; YInt 0; YInt 0; YInt 0; YInt 0; YInt 0; YInt 0; YInt 0; YInt 0; YInt 0; YInt 0; YInt 0]);
        ("N_angles", YList [YInt 64]);
        ("move_type", YList [YInt 0; YInt 0; YInt 1]);
        ("bench_type", YStr "S2");
        ("benchmarking", YBool false)]);
    ("gaussian_IC", YDict [("sigma", YInt 300);
        ("x0", YList [YInt 1700; YInt 1700; YInt 1700; YInt 1700; YInt 1700]);
        ("source_type", YList [YInt 0; YInt 0; YInt 0; YInt 1; YInt 0; YInt 0; YInt 0; YInt 0; YInt 0; YInt 0; YInt 0; YInt 0; YInt 0; YInt 0; YInt 0]);
        ("N_angles", YList [YInt 8; YInt 8; YInt 8; YInt 8; YInt 8]);
        ("move_type", YList [YInt 0; YInt 0; YInt 1]);
        ("benchmarking", YBool false)]);
    ("gaussian_source", YDict [("sigma", YFloat 375 (-3));
        ("l", YFloat 125 (-5));
        ("source_strength", YFloat 10 (-1));
        ("x0", YList [YFloat 15 (-1)]);
        ("source_type", YList [YInt 0; YInt 0; YInt 0; YInt 0; YInt 0; YInt 1; YInt 0; YInt 0; YInt 0; YInt 0; YInt 0; YInt 0; YInt 0; YInt 0; YInt 0]);
        ("N_angles", YList [YInt 16]);
        ("move_type", YList [YInt 1; YInt 0; YInt 0]);
        ("bench_type", YStr "S2");
        ("benchmarking", YBool false)])].

(** moving_mesh_transport/input_scripts/su_olson_thick_s2.yaml (1-86). *)
Definition yaml_su_olson_thick_s2 : yval :=
  YDict [("all", YDict [("problem_name", YStr "su_olson_thick_s2");
        ("tfinal", YFloat 20480 (-1));
        ("sigma_t", YFloat 8000 (-1));
        ("sigma_s", YFloat 8000 (-1));
        ("c_scaling", YBool false);
        ("t0", YFloat 125 (-4));
        ("N_spaces", YList [YInt 32]);
        ("tnodes", YInt 40);
        ("Ms", YList [YInt 6]);
        ("N_runs", YInt 1);
        ("rt", YStr "5e-13");
        ("at", YStr "1e-11");
        ("mxstp", YFloat 500 0);
        ("major", YStr "cells");
        ("radiative_transfer", YInt 1);
        ("temperature_dependence", YList [YInt 1; YInt 0; YInt 0; YInt 0]);
        ("e_initial", YFloat 1 (-11));
        ("weights", YStr "gauss_legendre");
        ("save_solution", YBool true);
        ("particle_v", YStr "sqrt_3");
        ("edge_v", YStr "sqrt_3");
        ("cv_const", YFloat 0 (-1));
        ("thick", YBool true);
        ("integrator", YStr "DOP853")]);
    ("plane_IC", YDict [("x0", YStr "1e-10");
        ("source_strength", YFloat 10 (-1));
        ("l", YFloat 125 (-5));
        ("source_type", YList [YInt 1; YInt 0; YInt 0; YInt 0; YInt 0; YInt 0; YInt 0; YInt 0; YInt 0; YInt 0; YInt 0; YInt 0; YInt 0; YInt 0; YInt 0]);
        ("N_angles", YList [YInt 2]);
        ("move_type", YList [YInt 0; YInt 0; YInt 1]);
        ("benchmarking", YBool false)]);
    ("square_IC", YDict [("x0", YList [YFloat 5 (-1)]);
        ("source_type", YList [YInt 0; YInt 1; YInt 0; YInt 0; YInt 0; YInt 0; YInt 0; YInt 0; YInt 0; YInt 0; YInt 0; YInt 0; YInt 0; YInt 0; YInt 0]);
        ("N_angles", YList [YInt 2]);
        ("move_type", YList [YInt 0; YInt 1; YInt 0]);
        ("benchmarking", YBool false)]);
    ("square_source", YDict [("x0", YList [YFloat 5 (-1)]);
        ("source_strength", YFloat 10 (-1));
        ("l", YFloat 125 (-5));
        ("source_type", YList [YInt 0; YInt 0; YInt 1; YInt 0; YInt 0; YInt 0; YInt 0; YInt 0; YInt 0; YInt 0; YInt 0; YInt 0; YInt 0; YInt 0; YInt 0]);
        ("N_angles", YList [YInt 2]);
        ("move_type", YList [YInt 0; YInt 0; YInt 1]);
        ("bench_type", YStr "S2");
        ("benchmarking", YBool false)]);
    ("gaussian_IC", YDict [("sigma", YInt 300);
        ("x0", YList [YInt 1700; YInt 1700; YInt 1700; YInt 1700; YInt 1700]);
        ("source_type", YList [YInt 0; YInt 0; YInt 0; YInt 1; YInt 0; YInt 0; YInt 0; YInt 0; YInt 0; YInt 0; YInt 0; YInt 0; YInt 0; YInt 0; YInt 0]);
        ("N_angles", YList [YInt 2]);
        ("move_type", YList [YInt 1; YInt 0]);
        ("benchmarking", YBool false)]);
    ("gaussian_source", YDict [("sigma", YFloat 375 (-3));
        ("l", YFloat 125 (-5));
        ("source_strength", YFloat 10 (-1));
        ("x0", YList [YFloat 95 (-1)]);
        ("source_type", YList [YInt 0; YInt 0; YInt 0; YInt 0; YInt 0; YInt 1; YInt 0; YInt 0; YInt 0; YInt 0; YInt 0; YInt 0; YInt 0; YInt 0; YInt 0]);
        ("N_angles", YList [YInt 2]);
        ("move_type", YList [YInt 1; YInt 0; YInt 0]);
        ("bench_type", YStr "S2");
        ("benchmarking", YBool false)])].

(** moving_mesh_transport/input_scripts/transport.yaml (1-118). *)
Definition yaml_transport : yval :=
  YDict [("all", YDict [("problem_name", YStr "transport");
        ("tfinal", YFloat 10 (-1));
        ("c_scaling", YBool false);
        ("epsilon_scaling", YBool false);
        ("epsilon", YFloat 10 (-1));
        ("sigma_t", YFloat 10 (-1));
        ("sigma_s", YFloat 10 (-1));
        ("t0", YFloat 50 (-1));
        ("N_spaces", YList [YInt 3; YInt 15]);
        ("tnodes", YInt 40);
        ("Ms", YList [YInt 3; YInt 3]);
        ("N_runs", YInt 1);
        ("rt", YStr "5e-12");
        ("at", YStr "1e-10");
        ("mxstp", YFloat 10 (-1));
        ("major", YStr "cells");
        ("radiative_transfer", YDict [("none", YBool true)]);
        ("temperature_dependence", YList [YInt 0; YInt 0; YInt 0; YInt 0]);
        ("e_initial", YFloat 1 (-10));
        ("weights", YStr "gauss_legendre");
        ("save_solution", YBool true);
        ("particle_v", YStr "one");
        ("edge_v", YStr "one");
        ("cv_const", YFloat 0 (-1));
        ("estimate_wavespeed", YBool false);
        ("thick", YBool false);
        ("integrator", YStr "DOP853");
        ("geometry", YDict [("slab", YBool false);
            ("sphere", YBool true)])]);
    ("plane_IC", YDict [("x0", YList [YStr "1e-11"]);
        ("l", YFloat 10 (-1));
        ("source_strength", YFloat 10 (-1));
        ("source_type", YList [YInt 1; YInt 0; YInt 0; YInt 0; YInt 0; YInt 0; YInt 0; YInt 0; YInt 0; YInt 0; YInt 0; YInt 0; YInt 0; YInt 0; YInt 0]);
        ("N_angles", YList [YInt 128]);
        ("move_type", YList [YInt 1; YInt 0; YInt 0]);
        ("benchmarking", YBool false)]);
    ("square_IC", YDict [("x0", YList [YFloat 5 (-1)]);
        ("source_strength", YFloat 10 (-1));
        ("source_type", YList [YInt 0; YInt 1; YInt 0; YInt 0; YInt 0; YInt 0; YInt 0; YInt 0; YInt 0; YInt 0; YInt 0; YInt 0; YInt 0; YInt 0; YInt 0]);
        ("N_angles", YList [YInt 64; YInt 1024]);
        ("move_type", YList [YInt 1; YInt 0]);
        ("benchmarking", YBool false)]);
    ("square_source", YDict [("x0", YList [YFloat 25 (-1)]);
        ("source_strength", YFloat 10 (-1));
        ("source_type", YList [YInt 0; YInt 0; YInt 1; YInt 0; YInt 0; YInt 0; YInt 0; YInt 0; YInt 0; YInt 0; YInt 0; YInt 0; YInt 0; YInt 0; YInt 0]);
        ("N_angles", YList [YInt 2048]);
        ("move_type", YList [YInt 1; YInt 0]);
        ("bench_type", YStr "full");
        ("benchmarking", YBool false)]);
    ("gaussian_IC", YDict [("sigma", YFloat 40 (-1));
        ("l", YFloat 10 (-1));
        ("source_strength", YFloat 10 (-1));
        ("x0", YList [YFloat 2255 (-1); YFloat 25 (-1); YFloat 25 (-1); YFloat 25 (-1); YFloat 25 (-1)]);
        ("source_type", YList [YInt 0; YInt 0; YInt 0; YInt 1; YInt 0; YInt 0; YInt 0; YInt 0; YInt 0; YInt 0; YInt 0; YInt 0; YInt 0; YInt 0; YInt 0; YInt 0]);
        ("N_angles", YList [YInt 16]);
        ("move_type", YList [YInt 1; YInt 0; YInt 0; YInt 0; YInt 0]);
        ("benchmarking", YBool false)]);
    ("gaussian_source", YDict [("sigma", YFloat 5 (-1));
        ("x0", YList [YInt 3; YInt 3; YInt 3; YInt 3; YInt 3]);
        ("source_type", YList [YInt 0; YInt 0; YInt 0; YInt 0; YInt 0; YInt 1; YInt 0; YInt 0; YInt 0; YInt 0; YInt 0; YInt 0; YInt 0; YInt 0; YInt 0]);
        ("N_angles", YList [YInt 64; YInt 128; YInt 128; YInt 256; YInt 512]);
        ("move_type", YList [YInt 1; YInt 0]);
        ("bench_type", YStr "full");
        ("benchmarking", YBool true)]);
    ("MMS", YDict [("x0", YList [YFloat 1 (-1)]);
        ("source_type", YList [YInt 0; YInt 0; YInt 0; YInt 0; YInt 1; YInt 0; YInt 0; YInt 0; YInt 0; YInt 0; YInt 0; YInt 0; YInt 0; YInt 0; YInt 0]);
        ("N_angles", YList [YInt 64; YInt 64; YInt 64]);
        ("move_type", YList [YInt 1; YInt 0]);
        ("benchmarking", YBool true)]);
    ("boundary_source", YDict [("x0", YList [YInt 5]);
        ("source_strength", YFloat 10 (-1));
        ("source_type", YList [YInt 0; YInt 0; YInt 0; YInt 0; YInt 0; YInt 0; YInt 0; YInt 0; YInt 0; YInt 0; YInt 0; YInt 0; YInt 0; YInt 0; YInt 0]);
        ("N_angles", YList [YInt 512]);
        ("move_type", YList [YInt 1; YInt 0]);
        ("bench_type", YStr "full");
        ("benchmarking", YBool false)]);
    ("dipole", YDict [("x0", YList [YFloat 25 (-2)]);
        ("l", YFloat 10 (-1));
        ("source_strength", YFloat 10 (-1));
        ("source_type", YList [YInt 2; YInt 0; YInt 0; YInt 0; YInt 0; YInt 0; YInt 0; YInt 0; YInt 0; YInt 0; YInt 0; YInt 0; YInt 0; YInt 0; YInt 0]);
        ("N_angles", YList [YInt 2]);
        ("move_type", YList [YInt 0; YInt 0; YInt 1]);
        ("benchmarking", YBool false)]);
    ("self_sim_plane", YDict [("x0", YList [YFloat 1 (-1)]);
        ("l", YFloat 10 (-1));
        ("source_strength", YFloat 10 (-1));
        ("source_type", YList [YInt 3; YInt 0; YInt 0; YInt 0; YInt 0; YInt 0; YInt 0; YInt 0; YInt 0; YInt 0; YInt 0; YInt 0; YInt 0; YInt 0; YInt 0]);
        ("N_angles", YList [YInt 2]);
        ("move_type", YList [YInt 0; YInt 0; YInt 1]);
        ("benchmarking", YBool false)])].

(** moving_mesh_transport/input_scripts/transport_s2.yml (1-99). *)
Definition yaml_transport_s2 : yval :=
  YDict [("all", YDict [("problem_name", YStr "transport");
        ("tfinal", YFloat 200 (-1));
        ("c_scaling", YBool false);
        ("sigma_t", YFloat 8000 (-1));
        ("sigma_s", YFloat 8000 (-1));
        ("t0", YInt 5000);
        ("N_spaces", YList [YInt 8]);
        ("tnodes", YInt 40);
        ("Ms", YList [YInt 0]);
        ("N_runs", YInt 1);
        ("rt", YStr "5e-13");
        ("at", YStr "1e-12");
        ("mxstp", YFloat 10 (-1));
        ("major", YStr "cells");
        ("radiative_transfer", YInt 0);
        ("temperature_dependence", YList [YInt 0; YInt 0; YInt 0; YInt 0]);
        ("e_initial", YFloat 1 (-10));
        ("weights", YStr "gauss_legendre");
        ("save_solution", YBool true);
        ("particle_v", YStr "sqrt_3");
        ("edge_v", YStr "sqrt_3");
        ("cv_const", YFloat 0 (-1));
        ("estimate_wavespeed", YBool false);
        ("thick", YBool true);
        ("integrator", YStr "DOP853")]);
    ("plane_IC", YDict [("x0", YList [YStr "1e-14"]);
        ("l", YFloat 10 (-1));
        ("source_strength", YFloat 10 (-1));
        ("source_type", YList [YInt 1; YInt 0; YInt 0; YInt 0; YInt 0; YInt 0; YInt 0; YInt 0; YInt 0; YInt 0; YInt 0; YInt 0; YInt 0; YInt 0; YInt 0]);
        ("N_angles", YList [YInt 2]);
        ("move_type", YList [YInt 0; YInt 0; YInt 1]);
        ("benchmarking", YBool false)]);
    ("square_IC", YDict [("x0", YList [YFloat 5 (-1)]);
        ("source_strength", YInt 1);
        ("source_type", YList [YInt 0; YInt 1; YInt 0; YInt 0; YInt 0; YInt 0; YInt 0; YInt 0; YInt 0; YInt 0; YInt 0; YInt 0; YInt 0; YInt 0; YInt 0]);
        ("N_angles", YList [YInt 128]);
        ("move_type", YList [YInt 1; YInt 0]);
        ("benchmarking", YBool false)]);
    ("square_source", YDict [("x0", YList [YFloat 25 (-1)]);
        ("source_strength", YFloat 10 (-1));
        ("source_type", YList [YInt 0; YInt 0; YInt 1; YInt 0; YInt 0; YInt 0; YInt 0; YInt 0; YInt 0; YInt 0; YInt 0; YInt 0; YInt 0; YInt 0; YInt 0]);
        ("N_angles", YList [YInt 128]);
        ("move_type", YList [YInt 1; YInt 0]);
        ("bench_type", YStr "full");
        ("benchmarking", YBool false)]);
    ("gaussian_IC", YDict [("sigma", YFloat 4166666666666667 (-16));
        ("source_strength", YFloat 12 (-1));
        ("x0", YList [YFloat 25 (-1); YFloat 25 (-1); YFloat 25 (-1); YFloat 25 (-1); YFloat 25 (-1)]);
        ("source_type", YList [YInt 0; YInt 0; YInt 0; YInt 1; YInt 0; YInt 0; YInt 0; YInt 0; YInt 0; YInt 0; YInt 0; YInt 0; YInt 0; YInt 0; YInt 0]);
        ("N_angles", YList [YInt 64; YInt 128; YInt 256; YInt 256; YInt 512]);
        ("move_type", YList [YInt 1; YInt 0; YInt 0; YInt 0; YInt 0]);
        ("benchmarking", YBool true)]);
    ("gaussian_source", YDict [("sigma", YFloat 5 (-1));
        ("x0", YList [YInt 3; YInt 3; YInt 3; YInt 3; YInt 3]);
        ("source_type", YList [YInt 0; YInt 0; YInt 0; YInt 0; YInt 0; YInt 1; YInt 0; YInt 0; YInt 0; YInt 0; YInt 0; YInt 0; YInt 0; YInt 0; YInt 0]);
        ("N_angles", YList [YInt 64; YInt 128; YInt 128; YInt 256; YInt 512]);
        ("move_type", YList [YInt 1; YInt 0]);
        ("bench_type", YStr "full");
        ("benchmarking", YBool true)]);
    ("MMS", YDict [("x0", YList [YFloat 1 (-1)]);
        ("source_type", YList [YInt 0; YInt 0; YInt 0; YInt 0; YInt 1; YInt 0; YInt 0; YInt 0; YInt 0; YInt 0; YInt 0; YInt 0; YInt 0; YInt 0; YInt 0]);
        ("N_angles", YList [YInt 64; YInt 64; YInt 64]);
        ("move_type", YList [YInt 1; YInt 0]);
        ("benchmarking", YBool true)]);
    ("boundary_source", YDict [("x0", YList [YInt 5]);
        ("source_strength", YFloat 10 (-1));
        ("source_type", YList [YInt 0; YInt 0; YInt 0; YInt 0; YInt 0; YInt 0; YInt 0; YInt 0; YInt 0; YInt 0; YInt 0; YInt 0; YInt 0; YInt 0; YInt 0]);
        ("N_angles", YList [YInt 128]);
        ("move_type", YList [YInt 1; YInt 0]);
        ("bench_type", YStr "full");
        ("benchmarking", YBool false)])].

(** run_functions.py run.load (45-53): the files [load] can find, by problem type (it appends '.yaml';
    transport_s2.yml is out of its reach). *)
Definition shipped : list (string * yval) :=
  [("rad_transfer_const_cv", yaml_rad_transfer_const_cv);
   ("rad_transfer_const_cv_s2", yaml_rad_transfer_const_cv_s2);
   ("rad_transfer_const_cv_thick", yaml_rad_transfer_const_cv_thick);
   ("rad_transfer_const_cv_thick_s2", yaml_rad_transfer_const_cv_thick_s2);
   ("su_olson", yaml_su_olson);
   ("su_olson_s2", yaml_su_olson_s2);
   ("su_olson_thick", yaml_su_olson_thick);
   ("su_olson_thick_s2", yaml_su_olson_thick_s2);
   ("transport", yaml_transport)].
