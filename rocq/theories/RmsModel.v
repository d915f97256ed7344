(** The error records and the convergence plots made of them.
    Covers moving_mesh_transport/loading_and_saving/save_output.py: the part of __init__ (13-44) and the methods
    save_RMS (46-100) and save_RMS_P1_su_olson (102-154); loading_and_saving/build_output_framework_script.py (12-68);
    plots/make_plots.py: rms_plotter.__init__ (26-45), find_c (47-58), find_c_semilog (60-76), load_RMS_data (79-167);
    plots/plot_functions/order_triangle.py (12-38) and coeff_con.py (10-33).

    Simplifications
    - Files are HDF5 trees as in StoreModel.v.  A path names one file; all paths are taken from the same working
      directory.
    - [str] of a float is a parameter [pr].  Printing and drawing leave no trace but what is stated.
    - A logarithm of a number that is not positive and a division by zero are the error NaN (numpy goes on with inf or nan).
    - scipy's linregress is its defining formulas (least squares); r, p and the standard error only reach [print].
    - The ends of an order triangle are positive, as on a logarithmic axis.
    - The methods that only draw (make_plots.py 169 onwards) are not modelled. *)
From Coq Require Import String Ascii DecimalString.
From Verif Require Import Py ConfigModel StoreModel.
Open Scope string_scope.
Open Scope R_scope.

(** python [int(x)] of a float. *)
Definition int_R (x : R) : Z := if Rleb 0 x then Int_part x else (- Int_part (- x))%Z.
(** python [str(z)] of an integer. *)
Definition str_Z (z : Z) : string := NilEmpty.string_of_int (Z.to_int z).
(** A python number that is turned into text: [str(1)] and [str(1.0)] differ. *)
Inductive pynum := PInt (z : Z) | PFloat (x : R).
Definition str_num (pr : R -> string) (n : pynum) : string := match n with PInt z => str_Z z | PFloat x => pr x end.

(** The attributes of save_output the two methods read (save_output.py 13-44); config_file_path is not set for the
    other problem types (34-39). *)
Record rms_saver := {
  q_file : option string; q_source : string; q_tfinal : R; q_moving : bool; q_uncollided : bool; q_major : string;
  q_spaces : list nat; q_Ms : list nat; q_thermal : Z; q_sigma : R; q_x0 : list R }.
(** save_output.py 34-39, with the folder of line 16. *)
Definition rms_file (problem_type : string) : option string :=
  if String.eqb problem_type "transport" then Some "moving_mesh_transport/local_run_data/run_data_transport_RMS.h5"
  else if existsb (String.eqb problem_type) ["su_olson"; "su_olson_s2"; "su_olson_thick"; "su_olson_thick_s2"]
  then Some "moving_mesh_transport/local_run_data/run_data_su_olson_RMS.h5"
  else None.
(** save_output.py __init__ (13-44). *)
Definition rms_init (tfinal : R) (N_spaces Ms : list nat) (source_type : list Z) (moving uncollided : bool)
    (major : string) (thermal_couple : Z) (sigma : R) (x0 : list R) (problem_type : string) : result rms_saver :=
  name <- source_name_of source_type ;;
  Ok {| q_file := rms_file problem_type; q_source := name; q_tfinal := tfinal; q_moving := moving;
        q_uncollided := uncollided; q_major := major; q_spaces := N_spaces; q_Ms := Ms; q_thermal := thermal_couple;
        q_sigma := sigma; q_x0 := x0 |}.

(** The lists a study hands over (save_output.py 46, 102). *)
Record study := { t_RMS : list R; t_energy : list R; t_angles : list R; t_times : list R }.

(** save_output.py 66, 119 and make_plots.py 129: the name of a record of a study over cells. *)
Definition cells_name (uncollided moving : bool) (M : nat) : string :=
  (if uncollided then "uncollided_" else "no_uncollided_") ++ (if moving then "moving_" else "static_") ++ "M_"
    ++ str_nat M.
(** save_output.py 89, 143 and make_plots.py 131: the name of a record of a study over orders. *)
Definition Ms_name (uncollided moving : bool) : string :=
  "Ms_" ++ (if uncollided then "uncollided_" else "no_uncollided_") ++ (if moving then "moving" else "static").

(** save_output.py 47: the times at which records are kept. *)
Definition saving_condition (sv : rms_saver) : bool :=
  existsb (Reqb (q_tfinal sv)) [1; 5; 10; 1.25; 0.8333333333333334] ||
  ((q_thermal sv =? 1)%Z && Reqb (q_tfinal sv) 31.6228).
(** save_output.py 56-61: the text of the time in a study over cells. *)
Definition time_text (t : R) : string :=
  if Reqb t 1.25 then "1.25" else if Reqb t 0.8333333333333334 then "0.8333333333333334" else str_Z (int_R t).

(** save_output.py 63-77 and its copies (82-100, 114-130, 135-154): open the group, drop an older record, write six
    rows.  [name] is worked out after the group has been made (66), so its error comes then. *)
Definition write_record (dest : string) (name : result string) (n : nat) (rows : list (list R)) : h5 unit :=
  b <~ h_contains nil dest ;;
  _ <~ (if b then hret tt else h_group nil dest) ;;
  g <~ h_open nil dest ;;
  s <~ (fun f => (name, f)) ;;
  _ <~ h_clear g s ;;
  d <~ h_data g s (A2 (repeat (repeat 0 n) 6)) ;;
  (fix go (i : nat) (l : list (list R)) : h5 unit :=
     match l with nil => hret tt | r :: l' => _ <~ h_row d i r ;; go (S i) l' end) 0%nat rows.

(** save_output.py 71-76: the rows of a study over cells, and 94-99: over orders. *)
Definition cells_rows (sv : rms_saver) (s : study) : list (list R) :=
  [map INR (q_spaces sv); t_RMS s; t_angles s; t_times s; map INR (q_Ms sv); t_energy s].
Definition Ms_rows (sv : rms_saver) (s : study) : list (list R) :=
  [map INR (q_Ms sv); t_RMS s; t_angles s; t_times s; map INR (q_spaces sv); t_energy s].

(** The folder of an attribute that may be missing, opened for reading and writing. *)
Definition in_file {A} (file : option string) (m : h5 A) (d : disk) : result A * disk :=
  match file with None => (Err AttributeError, d) | Some n => on_file n m d end.

(** save_output.py save_RMS (46-100). *)
Definition save_RMS (sv : rms_saver) (s : study) (d : disk) : result unit * disk :=
  if String.eqb (q_major sv) "cells" then
    if saving_condition sv then
      in_file (q_file sv) (write_record (q_source sv ++ "/" ++ "t=" ++ time_text (q_tfinal sv) ++ "/" ++ "RMS")
        (M <- getitem (q_Ms sv) 0 ;; Ok (cells_name (q_uncollided sv) (q_moving sv) M))
        (length (q_spaces sv)) (cells_rows sv s)) d
    else (Ok tt, d)
  else if String.eqb (q_major sv) "Ms" then
    if saving_condition sv then
      in_file (q_file sv) (write_record (q_source sv ++ "/" ++ "t=" ++ str_Z (int_R (q_tfinal sv)) ++ "/" ++ "RMS")
        (Ok (Ms_name (q_uncollided sv) (q_moving sv))) (length (q_spaces sv)) (Ms_rows sv s)) d
    else (Ok tt, d)
  else (Ok tt, d).

(** save_output.py 104-107: the name of the source in save_RMS_P1_su_olson. *)
Definition P1_source (sv : rms_saver) : result string :=
  if (int_R (q_sigma sv) =? 300)%Z then Ok "gaussian_s_thick"
  else x <- getitem (q_x0 sv) 0 ;; Ok (if Reqb x 400 then "su_olson_thick" else q_source sv).
(** save_output.py save_RMS_P1_su_olson (102-154); [ang] is the number of directions (solver.py 324).  The method
    also changes the object's source name (105-107) and, over cells, its time (112-113); objects are not used again
    afterwards (solver.py 41, 322-326) and the changes are left out. *)
Definition save_RMS_P1 (sv : rms_saver) (s : study) (ang : nat) (d : disk) : result unit * disk :=
  match P1_source sv with
  | Err e => (Err e, d)
  | Ok source =>
      let dest := source ++ "/" ++ "t=" ++ str_Z (int_R (q_tfinal sv)) ++ "/" ++ "RMS" ++ "/" ++ ("S" ++ str_nat ang) in
      if String.eqb (q_major sv) "cells" then
        in_file (q_file sv) (write_record dest
          (M <- getitem (q_Ms sv) 0 ;; Ok (cells_name (q_uncollided sv) (q_moving sv) M))
          (length (q_spaces sv)) (cells_rows sv s)) d
      else if String.eqb (q_major sv) "Ms" then
        in_file (q_file sv) (write_record dest (Ok (Ms_name (q_uncollided sv) (q_moving sv)))
          (length (q_spaces sv)) (Ms_rows sv s)) d
      else (Ok tt, d)
  end.

(** build_output_framework_script.py make_RMS_file (12-58): groups are made in two files of the working directory,
    opened to append. *)
Fixpoint make_groups (l : list string) : h5 unit :=
  match l with nil => hret tt | s :: l' => _ <~ h_group nil s ;; make_groups l' end.
Definition framework : list string :=
  ["plane_IC"; "square_IC"; "square_s"; "gaussian_IC"; "gaussian_s"; "MMS";
   "plane_IC/t=1/RMS"; "plane_IC/t=5/RMS"; "plane_IC/t=10/RMS";
   "square_IC/t=1/RMS"; "square_IC/t=5/RMS"; "square_IC/t=10/RMS";
   "square_s/t=1/RMS"; "square_s/t=5/RMS"; "square_s/t=10/RMS";
   "gaussian_IC/t=1/RMS"; "gaussian_IC/t=5/RMS"; "gaussian_IC/t=10/RMS";
   "gaussian_s/t=1/RMS"; "gaussian_s/t=5/RMS"; "gaussian_s/t=10/RMS";
   "MMS/t=1/RMS"; "MMS/t=5/RMS"; "MMS/t=10/RMS"].
Definition framework_rad : list string :=
  ["gaussian_s"; "gaussian_s/t=1/RMS"; "gaussian_s/t=5/RMS"; "gaussian_s/t=10/RMS"; "gaussian_s/t=31.6228/RMS";
   "gaussian_s/t=1/RMS/S2"; "gaussian_s/t=5/RMS/S2"; "gaussian_s/t=10/RMS/S2"; "gaussian_s/t=31.6228/RMS/S2"].
(** [h5py.File(name, 'a')] makes a missing file. *)
Definition append_file {A} (name : string) (m : h5 A) (d : disk) : result A * disk :=
  let f := match d name with Some f => f | None => Group nil end in
  let '(r, f') := m f in (r, set_file d name f').
Definition make_RMS_file (d : disk) : result unit * disk :=
  match append_file "run_data_RMS.h5" (make_groups framework) d with
  | (Ok _, d1) => append_file "run_data_radiative_transfer_RMS.h5" (make_groups framework_rad) d1
  | (Err e, d1) => (Err e, d1)
  end.

(** make_plots.py rms_plotter (26-45) and what load_RMS_data stores on the object; an attribute may be unset. *)
Record plotter := {
  p_tfinal : pynum; p_M : nat; p_source : string; p_major : string;
  p_cells : option (list R); p_Ms : option (list R); p_RMS : option (list R); p_angles : option (list R);
  p_times : option (list R); p_energy : option (list R) }.
(** make_plots.py 26-45. *)
Definition rms_plotter (tfinal : pynum) (M : nat) (source major : string) : plotter :=
  {| p_tfinal := tfinal; p_M := M; p_source := source; p_major := major; p_cells := None; p_Ms := None;
     p_RMS := None; p_angles := None; p_times := None; p_energy := None |}.
(** make_plots.py 27-28 and 38. *)
Definition plot_file : string := "moving_mesh_transport/run_data_transport_RMS.h5".
Definition plot_file_rad : string := "moving_mesh_transport/run_data_su_olson_RMS.h5".

(** python [s in [...]]. *)
Definition one_of (s : string) (l : list string) : bool := existsb (String.eqb s) l.
(** make_plots.py 102-126: the group read.  The later choices overwrite the earlier ones. *)
Definition load_dest (pr : R -> string) (p : plotter) : string :=
  let s := p_source p in
  let at_ (name tail : string) := name ++ "/" ++ "t=" ++ str_num pr (p_tfinal p) ++ "/" ++ "RMS" ++ tail in
  if one_of s ["su_olson_s2"; "su_olson_energy_s2"] then at_ "square_s" ("/" ++ "S2")
  else if one_of s ["gaussian_s2"; "gaussian_energy_s2"] then at_ "gaussian_s" ("/" ++ "S2")
  else if one_of s ["gaussian_s_thick_s2"; "gaussian_s_thick_s2_energy"] then at_ "gaussian_s_thick" ("/" ++ "S2")
  else if one_of s ["gaussian_s_thick_s8"; "gaussian_s_thick_s8_energy"] then at_ "gaussian_s_thick" ("/" ++ "S8")
  else if one_of s ["su_olson_thick_s2"; "su_olson_thick_s2_energy"] then at_ "su_olson_thick" ("/" ++ "S2")
  else if one_of s ["su_olson_thick_s8"; "su_olson_thick_s8_energy"] then at_ "su_olson_thick" ("/" ++ "S8")
  else if one_of s ["su_olson"; "su_olson_energy"] then at_ "square_s" ""
  else at_ s "".
(** make_plots.py 134-138 and 156-160: the sources read from the second file. *)
Definition rad_sources : list string :=
  ["su_olson"; "su_olson_energy"; "su_olson_energy_s2"; "su_olson_s2"; "gaussian_s2"; "gaussian_energy_s2";
   "gaussian_s_thick_s2"; "gaussian_s_thick_s8"; "su_olson_thick_s2"; "su_olson_thick_s8";
   "gaussian_s_thick_s2_energy"; "gaussian_s_thick_s8_energy"; "su_olson_thick_s2_energy"; "su_olson_thick_s8_energy"].
(** make_plots.py 128-131; another [major] leaves the name unbound. *)
Definition load_name (p : plotter) (uncollided moving : bool) : result string :=
  if String.eqb (p_major p) "cells" then Ok (cells_name uncollided moving (p_M p))
  else if String.eqb (p_major p) "Ms" then Ok (Ms_name uncollided moving)
  else Err UnboundLocal.
(** make_plots.py 143-153 and 164-176: the rows kept; [energy] tells the second file from the first. *)
Definition take_rows (p : plotter) (a : array) (energy : bool) : result plotter :=
  r0 <- read_row a 0 ;;
  cm <- (if String.eqb (p_major p) "cells" then Ok (Some r0, p_Ms p)
          else if String.eqb (p_major p) "Ms"
          then r4 <- read_row a 4 ;; _ <- getitem r4 0 ;; Ok (Some r4, Some r0)
          else Ok (p_cells p, p_Ms p)) ;;
  r1 <- read_row a 1 ;; r2 <- read_row a 2 ;; r3 <- read_row a 3 ;;
  e <- (if energy then r5 <- read_row a 5 ;; Ok (Some r5) else Ok (p_energy p)) ;;
  Ok {| p_tfinal := p_tfinal p; p_M := p_M p; p_source := p_source p; p_major := p_major p;
        p_cells := fst cm; p_Ms := snd cm; p_RMS := Some r1; p_angles := Some r2; p_times := Some r3; p_energy := e |}.
(** make_plots.py load_RMS_data (79-176).  Both files are opened for reading; line 139 looks at the group
    'gaussian_IC' whatever the source. *)
Definition load_RMS_data (pr : R -> string) (p : plotter) (uncollided moving : bool) (d : disk) : result plotter :=
  match d plot_file with
  | None => Err OSError                                                                           (* 98 *)
  | Some f =>
      name <- load_name p uncollided moving ;;
      if one_of (p_source p) rad_sources then
        match d plot_file_rad with
        | None => Err OSError                                                                     (* 162 *)
        | Some g => a <- read g nil (load_dest pr p ++ "/" ++ name) ;; take_rows p a true
        end
      else
        _ <- match lookup ["gaussian_IC"] f with
             | Some (Group _) => Ok tt | Some (Dset _) => Err AttributeError | None => Err KeyError
             end ;;                                                                               (* 139 *)
        a <- read f nil (load_dest pr p ++ "/" ++ name) ;; take_rows p a false
  end.

(** numpy [np.log(v)]. *)
Fixpoint logs (l : list R) : result (list R) :=
  match l with
  | nil => Ok nil
  | x :: l' => if Rltb 0 x then r <- logs l' ;; Ok (ln x :: r) else Err NaN
  end.
(** numpy [np.mean(v)]. *)
Definition mean (l : list R) : R := rsum l / INR (length l).
(** scipy.stats.linregress(x, y): slope and intercept of the least-squares line. *)
Definition linregress (x y : list R) : result (R * R) :=
  match x with
  | nil => Err ValueError
  | _ =>
      if negb (length x =? length y)%nat then Err ValueError
      else
        let xm := mean x in let ym := mean y in
        let sxx := rsum (map (fun a => (a - xm) * (a - xm)) x) in
        let sxy := rsum (map2 (fun a b => (a - xm) * (b - ym)) x y) in
        if Reqb sxx 0 then (if (length x =? 1)%nat then Err NaN else Err ValueError)
        else let slope := sxy / sxx in Ok (slope, ym - slope * xm)
  end.
(** An attribute that may be unset. *)
Definition attr {A} (o : option A) : result A := match o with Some a => Ok a | None => Err AttributeError end.
(** make_plots.py find_c (47-58): the value returned and the one printed for the energy density. *)
Definition find_c (p : plotter) : result (R * R) :=
  cells <- attr (p_cells p) ;; x <- logs (slice_from cells 1) ;;
  rms <- attr (p_RMS p) ;; y <- logs (slice_from rms 1) ;;
  en <- attr (p_energy p) ;; y1 <- logs (slice_from en 1) ;;
  a <- linregress x y ;; b <- linregress x y1 ;;
  Ok (exp (snd a), exp (snd b)).
(** make_plots.py find_c_semilog (60-76): the slope returned and the one printed for the energy density. *)
Definition find_c_semilog (p : plotter) : result (R * R) :=
  Ms <- attr (p_Ms p) ;; rms <- attr (p_RMS p) ;; y <- logs (slice_from rms 1) ;;
  en <- attr (p_energy p) ;; y1 <- logs (slice_from en 1) ;;
  a <- linregress (slice_from Ms 1) y ;; b <- linregress (slice_from Ms 1) y1 ;;
  Ok (fst a, fst b).

(** order_triangle.py (12-38): the two ends of the sloping side, the place of the label and the number in it. *)
Record triangle := { g_p1 : R * R; g_p2 : R * R; g_text : R * R; g_order : Z }.
Definition order_triangle (xstart xend slope intercept dy dx : R) : result triangle :=
  if Reqb dx 0 then Err ZeroDivision else if Reqb dy 0 then Err ZeroDivision else
  let y1 := (intercept - intercept / dx) * Rpower xstart (- slope) in                             (* 13 *)
  let y2 := (intercept - intercept / dx) * Rpower xend (- slope) in                               (* 14 *)
  let xmid := exp (ln xstart + ln (xend / xstart) / 5) in                                         (* 34 *)
  Ok {| g_p1 := (xstart, y1); g_p2 := (xend, y2); g_text := (xmid, y2 - y2 / dy); g_order := int_R slope |}.

(** coeff_con.py (10-33): with three axes the mean over directions of the coefficients of cell k, with two the
    coefficients themselves.  [max_cell] and [index_of_max] (29-30) are not used; N_ang is not used. *)
Definition coeff_con3 (ws : list R) (sol : list (list (list R))) (M k : nat) : result (list R) :=
  let fix go (js : list nat) : result (list R) :=
    match js with
    | nil => Ok nil
    | j :: js' =>
        col <- (fix col (l : list (list (list R))) : result (list R) :=
                  match l with nil => Ok nil
                  | m :: l' => row <- getitem m k ;; v <- getitem row j ;; r <- col l' ;; Ok (v :: r) end) sol ;;
        p <- vmul ws col ;;
        if Reqb (rsum ws) 0 then Err NaN else
        r <- go js' ;; Ok (rsum p / rsum ws :: r)
    end in go (seq 0 (M + 1)).
Definition coeff_con2 (sol : list (list R)) (M k : nat) : result (list R) :=
  row <- getitem sol k ;;
  let fix go (js : list nat) : result (list R) :=
    match js with nil => Ok nil | j :: js' => v <- getitem row j ;; r <- go js' ;; Ok (v :: r) end in go (seq 0 (M + 1)).
