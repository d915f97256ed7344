(** Saving and loading results.
    Covers moving_mesh_transport/loading_and_saving/save_output.py: __init__ (13-44), save_solution (156-240),
    save_wave_loc (243-289), and moving_mesh_transport/loading_and_saving/load_solution.py: __init__ (15-35),
    call_sol (37-79), call_wavepoints (83-157).

    Simplifications
    - An HDF5 file is a tree of named groups and datasets.  Paths follow HDF5: text starting with a slash is
      taken from the root of the file even when it is given to a group, repeated slashes count once.
    - A dataset created from a shape alone has h5py's default type float32: what is written to it is rounded to
      the nearest single-precision number (ties to even).  Overflow to infinity is not modelled.  A dataset
      created from [data=] keeps the float64 data.
    - [str] of a float is a parameter [pr]; [str] of an integer is its decimal text.
    - On an exception the file keeps what has been written so far.
    - save_RMS and save_RMS_P1_su_olson (46-154) are in RmsModel.v; no live code calls them (solver.py 322-326 is
      commented out). *)
From Coq Require Import String Ascii DecimalString.
From Flocq Require Core.
From Verif Require Import Py ConfigModel.
Open Scope string_scope.
Open Scope R_scope.

(** numpy arrays that are stored. *)
Inductive array := A1 (v : list R) | A2 (v : list (list R)) | A3 (v : list (list (list R))).
(** An HDF5 object: a group with its members, or a dataset. *)
Inductive node := Group (kids : list (string * node)) | Dset (a : array).

(** Rounding of float64 to float32, the default type of [create_dataset(name, shape)] (save_output.py 197). *)
Definition f32 (x : R) : R :=
  Core.Generic_fmt.round Core.Zaux.radix2 (Core.FLT.FLT_exp (-149) 24)
    (Core.Generic_fmt.Znearest (fun n => negb (Z.even n))) x.

(** HDF5 paths: the pieces between slashes. *)
Fixpoint split_slash (s : string) : list string :=
  match s with
  | EmptyString => [""]
  | String c s' =>
      match split_slash s' with
      | w :: ws => if Ascii.eqb c "/" then "" :: w :: ws else String c w :: ws
      | nil => nil
      end
  end.
Definition parts (s : string) : list string := filter (fun w => negb (String.eqb w "")) (split_slash s).
Definition absolute (s : string) : bool :=
  match s with String c _ => Ascii.eqb c "/" | EmptyString => false end.
(** The object a name means when it is given to the group at [base]. *)
Definition resolve (base : list string) (s : string) : list string :=
  if absolute s then parts s else base ++ parts s.

(** HDF5: the object at a path. *)
Fixpoint lookup (p : list string) (n : node) : option node :=
  match p with
  | nil => Some n
  | s :: p' => match n with
               | Group l => match assoc s l with Some m => lookup p' m | None => None end
               | Dset _ => None
               end
  end.
(** Replacing the member [s] of a group. *)
Fixpoint update (s : string) (m : node) (l : list (string * node)) : list (string * node) :=
  match l with
  | nil => nil
  | (k, v) :: l' => if String.eqb s k then (k, m) :: l' else (k, v) :: update s m l'
  end.
(** Dropping the member [s] of a group. *)
Definition drop (s : string) (l : list (string * node)) : list (string * node) :=
  filter (fun kv => negb (String.eqb s (fst kv))) l.
(** A new object below new groups. *)
Fixpoint fresh (p : list string) (v : node) : node :=
  match p with nil => v | s :: p' => Group [(s, fresh p' v)] end.
(** h5py create_group / create_dataset: missing groups on the way are made, an existing name is an error. *)
Fixpoint put (p : list string) (v : node) (n : node) : result node :=
  match p with
  | nil => Err ValueError
  | s :: p' =>
      match n with
      | Dset _ => Err ValueError
      | Group l => match assoc s l with
                   | None => Ok (Group ((s, fresh p' v) :: l))
                   | Some m => m' <- put p' v m ;; Ok (Group (update s m' l))
                   end
      end
  end.
(** h5py [del group[name]]. *)
Fixpoint remove (p : list string) (n : node) : result node :=
  match p with
  | nil => Err KeyError
  | s :: p' =>
      match n with
      | Dset _ => Err KeyError
      | Group l => match assoc s l with
                   | None => Err KeyError
                   | Some m => match p' with
                               | nil => Ok (Group (drop s l))
                               | _ => m' <- remove p' m ;; Ok (Group (update s m' l))
                               end
                   end
      end
  end.
(** Writing into an existing dataset: the object at a path is replaced. *)
Fixpoint replace (p : list string) (v : node) (n : node) : result node :=
  match p with
  | nil => Ok v
  | s :: p' =>
      match n with
      | Dset _ => Err KeyError
      | Group l => match assoc s l with
                   | None => Err KeyError
                   | Some m => m' <- replace p' v m ;; Ok (Group (update s m' l))
                   end
      end
  end.

(** Code that works on an open file: a result and the file afterwards. *)
Definition h5 (A : Type) := node -> result A * node.
Definition hbind {A B} (m : h5 A) (k : A -> h5 B) : h5 B :=
  fun f => match m f with (Ok a, f') => k a f' | (Err e, f') => (Err e, f') end.
Notation "x <~ m ;; k" := (hbind m (fun x => k)) (at level 61, m at next level, right associativity).
Definition hret {A} (a : A) : h5 A := fun f => (Ok a, f).
Definition herr {A} (e : exn) : h5 A := fun f => (Err e, f).
(** A change of the file that may fail and then changes nothing. *)
Definition change (g : node -> result node) : h5 unit :=
  fun f => match g f with Ok f' => (Ok tt, f') | Err e => (Err e, f) end.

(** h5py [group.__contains__(name)], [group[name]] used as a group, create_group, create_dataset, [del]. *)
Definition h_contains (base : list string) (name : string) : h5 bool :=
  fun f => (Ok (match lookup (resolve base name) f with Some _ => true | None => false end), f).
Definition h_open (base : list string) (name : string) : h5 (list string) :=
  fun f => (match lookup (resolve base name) f with
            | Some (Group _) => Ok (resolve base name)
            | Some (Dset _) => Err AttributeError
            | None => Err KeyError
            end, f).
Definition h_group (base : list string) (name : string) : h5 unit :=
  change (put (resolve base name) (Group nil)).
Definition h_data (base : list string) (name : string) (a : array) : h5 (list string) :=
  _ <~ change (put (resolve base name) (Dset a)) ;; hret (resolve base name).
Definition h_del (base : list string) (name : string) : h5 unit := change (remove (resolve base name)).
(** h5py [if group.__contains__(name): del group[name]]. *)
Definition h_clear (base : list string) (name : string) : h5 unit :=
  b <~ h_contains base name ;; if b then h_del base name else hret tt.
(** h5py [dset[i] = row] on a two-dimensional float32 dataset; a row of length one is broadcast. *)
Definition h_row (p : list string) (i : nat) (row : list R) : h5 unit :=
  change (fun f =>
    match lookup p f with
    | Some (Dset (A2 rows)) =>
        old <- getitem rows i ;;
        new <- (if (length row =? length old)%nat then Ok (map f32 row)
                else match row with [x] => Ok (repeat (f32 x) (length old)) | _ => Err TypeError end) ;;
        rows' <- setitem rows i new ;;
        replace p (Dset (A2 rows')) f
    | _ => Err TypeError
    end).

(** [str] of an integer. *)
Definition str_nat (n : nat) : string := NilEmpty.string_of_uint (Nat.to_uint n).
(** python [text * flag]. *)
Definition times (s : string) (b : bool) : string := if b then s else "".

(** save_output.py source_name_list (41). *)
Definition source_names : list string :=
  ["plane_IC"; "square_IC"; "square_s"; "gaussian_IC"; "MMS"; "gaussian_s"].
(** numpy [np.argmin]: the first position of the least element. *)
Fixpoint argmin_from (best : Z) (at_ i : nat) (l : list Z) : nat :=
  match l with
  | nil => at_
  | z :: l' => if (z <? best)%Z then argmin_from z i (S i) l' else argmin_from best at_ (S i) l'
  end.
Definition argmin (l : list Z) : result nat :=
  match l with nil => Err ValueError | z :: l' => Ok (argmin_from z 0 1 l') end.
(** save_output.py 41-44: the name a run is filed under. *)
Definition source_name_of (source_type : list Z) : result string :=
  i <- argmin (map (fun z => Z.abs (z - 1)) source_type) ;; getitem source_names i.

(** save_output.py __init__ (13-44): the attributes save_solution and save_wave_loc read. *)
Record saver := {
  s_problem : string; s_source : string; s_tfinal : R; s_moving : bool; s_uncollided : bool;
  s_c : R; s_cv : R; s_epsilon : R }.
(** save_output.py __init__ (13-44); N_spaces, Ms, major, thermal_couple, temp_function, sigma, x0 and N_angles are
    stored and not used by the methods modelled here. *)
Definition save_output (tfinal : R) (source_type : list Z) (moving uncollided : bool) (c cv_const : R)
    (problem_type : string) (epsilon : R) : result saver :=
  name <- source_name_of source_type ;;
  Ok {| s_problem := problem_type; s_source := name; s_tfinal := tfinal; s_moving := moving;
        s_uncollided := uncollided; s_c := c; s_cv := cv_const; s_epsilon := epsilon |}.

(** save_output.py save_solution 162-183: the folder. *)
Definition save_folder (pr : R -> string) (sv : saver) : string :=
  let p := s_problem sv in
  if String.eqb p "transport" then "transport"
  else if String.eqb p "rad_transfer_constant_cv" then "transfer_const_cv=" ++ pr (s_cv sv)
  else if String.eqb p "rad_transfer_constant_cv_s2" then "transfer_const_cv=" ++ pr (s_cv sv) ++ "_s2"
  else if String.eqb p "rad_transfer_constant_cv_thick" then "transfer_const_cv=" ++ pr (s_cv sv) ++ "_thick"
  else if String.eqb p "rad_transfer_constant_cv_thick_s2" then "transfer_const_cv=" ++ pr (s_cv sv) ++ "_thick_s2"
  else if String.eqb p "su_olson_s2" then "su_olson_s2"
  else if String.eqb p "su_olson_thick_s2" then "su_olson_thick_s2"
  else if String.eqb p "su_olson_thick" then "su_olson_thick"
  else if String.eqb p "su_olson" then "su_olson"
  else "none".

(** save_output.py save_solution 186-190 and load_solution.py call_sol 39-43: the text of the key. *)
Definition key_str (pr : R -> string) (source_name : string) (uncollided moving : bool) (N_space : nat)
    (tfinal c x0_or_sigma epsilon : R) : string :=
  "/" ++ source_name ++ times "_uncollided_" uncollided ++ times "moving_mesh_" moving ++ "N_space = "
      ++ str_nat N_space ++ "_t = " ++ pr tfinal ++ "_c = " ++ pr c ++ "_x0_or_sigma = " ++ pr x0_or_sigma
      ++ (if Reqb epsilon 1 then "" else "_epsilon=" ++ pr epsilon).

(** What the solver hands over (save_output.py 156). *)
Record solution := {
  o_xs : list R; o_phi : list R; o_e : list R; o_coeff : list (list (list R)); o_edges : list R;
  o_ws : list R; o_psi : list (list R); o_mus : list R }.

(** save_output.py save_solution (156-240).  The arguments s2 and epsilon are not used (epsilon is overwritten in
    159). *)
Definition save_solution (pr : R -> string) (sv : saver) (o : solution) (x0_or_sigma : R) (N_space : nat)
    (s2 : bool) (epsilon : R) : h5 unit :=
  let folder_name := save_folder pr sv in                                                       (* 162-183 *)
  let full_str := key_str pr (s_source sv) (s_uncollided sv) (s_moving sv) N_space (s_tfinal sv) (s_c sv)
                          x0_or_sigma (s_epsilon sv) in                                          (* 186-190 *)
  b <~ h_contains nil folder_name ;;                                                             (* 184-185 *)
  _ <~ (if b then hret tt else h_group nil folder_name) ;;
  g <~ h_open nil folder_name ;;
  _ <~ h_clear g ("solution/" ++ full_str) ;;                                                    (* 192-193 *)
  dset <~ h_data g ("solution/" ++ full_str) (A2 (repeat (repeat 0 (length (o_xs o))) 4)) ;;     (* 197 *)
  b <~ h_contains g full_str ;;                                                                  (* 199-200 *)
  _ <~ (if b then hret tt else h_group nil full_str) ;;
  k <~ h_open g full_str ;;
  _ <~ h_clear k "psi" ;;                                                                        (* 204-205 *)
  _ <~ h_clear k "mus" ;;                                                                        (* 206-207 *)
  _ <~ h_row dset 0 (o_xs o) ;;                                                                  (* 209 *)
  _ <~ h_row dset 1 (o_phi o) ;;                                                                 (* 210 *)
  _ <~ (if String.eqb folder_name "transport" then hret tt else h_row dset 2 (o_e o)) ;;         (* 211-212 *)
  _ <~ h_data k "psi" (A2 (o_psi o)) ;;                                                          (* 214 *)
  _ <~ h_data k "mus" (A1 (o_mus o)) ;;                                                          (* 215 *)
  _ <~ h_clear g ("coefficients/" ++ full_str) ;;                                                (* 223-224 *)
  _ <~ h_data g ("coefficients/" ++ full_str) (A3 (o_coeff o)) ;;                                (* 227 *)
  _ <~ h_clear g ("weights/" ++ full_str) ;;                                                     (* 229-230 *)
  _ <~ h_data g ("weights/" ++ full_str) (A1 (o_ws o)) ;;                                        (* 232 *)
  _ <~ h_clear g ("edges/" ++ full_str) ;;                                                       (* 234-235 *)
  _ <~ h_data g ("edges/" ++ full_str) (A1 (o_edges o)) ;;                                       (* 237 *)
  hret tt.

(** load_solution.py __init__ (15-35). *)
Record loader := {
  l_problem : string; l_source : string; l_rad_or_transfer : string; l_c : R; l_cv : R }.
(** load_solution.py 29-32: the folder read. *)
Definition load_folder (pr : R -> string) (ld : loader) : string :=
  let p := l_problem ld in
  if String.eqb p "rad_transfer_const_cv_thick" then "transfer_const_cv=" ++ pr (l_cv ld) ++ "_thick"
  else if String.eqb p "rad_transfer_const_cv" then "transfer_const_cv=" ++ pr (l_cv ld)
  else p.

(** What call_sol stores on the object; coeff_mat may stay unset (64-71). *)
Record loaded := {
  r_xs : list R; r_phi : list R; r_e : list R; r_psi : array; r_mus : array; r_ws : array; r_edges : array;
  r_coeff : option array }.

(** h5py [group[name]] read as a dataset: [[:]], [[i]], [[:,:]]. *)
Definition read (f : node) (base : list string) (name : string) : result array :=
  match lookup (resolve base name) f with
  | Some (Dset a) => Ok a
  | Some (Group _) => Err TypeError
  | None => Err KeyError
  end.
Definition read_row (a : array) (i : nat) : result (list R) :=
  match a with A2 rows => getitem rows i | _ => Err TypeError end.
(** [[:,:]] needs two axes, [[:,:,:]] three. *)
Definition two_axes (a : array) : result array := match a with A1 _ => Err ValueError | _ => Ok a end.
Definition three_axes (a : array) : result (list (list (list R))) :=
  match a with A3 v => Ok v | _ => Err ValueError end.
Definition get_group (f : node) (base : list string) (name : string) : result (list string) :=
  match lookup (resolve base name) f with
  | Some (Group _) => Ok (resolve base name)
  | Some (Dset _) => Err ValueError
  | None => Err KeyError
  end.

(** load_solution.py call_sol (37-79) on the open file.  M is not used. *)
Definition call_sol (pr : R -> string) (ld : loader) (tfinal : R) (M : nat) (x0_or_sigma : R) (N_space : nat)
    (mat_or_rad : string) (uncollided moving : bool) (epsilon : R) (f : node) : result loaded :=
  let full_str := key_str pr (l_source ld) uncollided moving N_space tfinal (l_c ld) x0_or_sigma epsilon in
  g <- get_group f nil (load_folder pr ld) ;;
  sol_data <- read f g ("solution/" ++ full_str) ;;                                              (* 47 *)
  xs <- read_row sol_data 0 ;;
  phi <- read_row sol_data 1 ;;
  e <- read_row sol_data 2 ;;
  k <- get_group f g full_str ;;
  psi <- (a <- read f k "psi" ;; two_axes a) ;;                                                  (* 53 *)
  mus <- read f k "mus" ;;                                                                       (* 56 *)
  ws <- read f g ("weights/" ++ full_str) ;;                                                     (* 59 *)
  edges <- read f g ("edges/" ++ full_str) ;;                                                    (* 60 *)
  coeff <- (if String.eqb (l_rad_or_transfer ld) "transfer"
            then if String.eqb mat_or_rad "rad"
                 then a <- read f g ("coefficients/" ++ full_str) ;; v <- three_axes a ;;
                      Ok (Some (A3 (drop_last v)))                                               (* 66 *)
                 else if String.eqb mat_or_rad "mat"
                 then a <- read f g ("coefficients/" ++ full_str) ;; v <- three_axes a ;;
                      w <- getneg v 1 ;; Ok (Some (A2 w))                                        (* 69 *)
                 else Ok None
            else a <- read f g ("coefficients/" ++ full_str) ;; v <- three_axes a ;;
                 Ok (Some (A3 v))) ;;                                                            (* 71 *)
  Ok {| r_xs := xs; r_phi := phi; r_e := e; r_psi := psi; r_mus := mus; r_ws := ws; r_edges := edges;
        r_coeff := coeff |}.

(** The data folder: files by name. *)
Definition disk := string -> option node.
Definition set_file (d : disk) (name : string) (f : node) : disk :=
  fun n => if String.eqb n name then Some f else d n.
(** [h5py.File(name, 'r+')] needs the file to exist. *)
Definition on_file {A} (name : string) (m : h5 A) (d : disk) : result A * disk :=
  match d name with
  | None => (Err OSError, d)
  | Some f => let '(r, f') := m f in (r, set_file d name f')
  end.
(** save_output.py solution_file_path (17) and load_solution.py's default file_name (15). *)
Definition run_file : string := "run_data.hdf5".
Definition default_load_file : string := "run_data_crc_dec15-3.hdf5".
(** save_solution on the data folder (17, 160). *)
Definition save_to_disk (pr : R -> string) (sv : saver) (o : solution) (x0_or_sigma : R) (N_space : nat)
    (s2 : bool) (epsilon : R) : disk -> result unit * disk :=
  on_file run_file (save_solution pr sv o x0_or_sigma N_space s2 epsilon).
(** call_sol on the data folder: opens [file_name] and creates 'run_data_final' if it is missing (44-45). *)
Definition load_from_disk (pr : R -> string) (ld : loader) (file_name : string) (tfinal : R) (M : nat)
    (x0_or_sigma : R) (N_space : nat) (mat_or_rad : string) (uncollided moving : bool) (epsilon : R) (d : disk)
  : result loaded * disk :=
  match d file_name with
  | None => (Err OSError, d)
  | Some f =>
      let d' := match d "run_data_final" with Some _ => d | None => set_file d "run_data_final" (Group nil) end in
      (call_sol pr ld tfinal M x0_or_sigma N_space mat_or_rad uncollided moving epsilon f, d')
  end.

(** The wave-front record (save_output.py 243). *)
Record wave := { w_t : list R; w_left : list R; w_right : list R; w_T : list R }.
(** save_output.py save_wave_loc 248-264: the folder; it lacks the cases of constant heat capacity with two
    directions. *)
Definition wave_folder (pr : R -> string) (sv : saver) : string :=
  let p := s_problem sv in
  if String.eqb p "transport" then "transport"
  else if String.eqb p "rad_transfer_constant_cv" then "transfer_const_cv=" ++ pr (s_cv sv)
  else if String.eqb p "rad_transfer_constant_cv_thick" then "transfer_const_cv=" ++ pr (s_cv sv) ++ "_thick"
  else if String.eqb p "su_olson_s2" then "su_olson_s2"
  else if String.eqb p "su_olson_thick_s2" then "su_olson_thick_s2"
  else if String.eqb p "su_olson_thick" then "su_olson_thick"
  else if String.eqb p "su_olson" then "su_olson"
  else "none".
(** save_output.py 270, load_solution.py 87: the key of the wave record. *)
Definition wave_key (pr : R -> string) (source_name : string) (tfinal : R) : string :=
  source_name ++ "t = " ++ pr tfinal.
(** save_output.py save_wave_loc (243-289). *)
Definition save_wave_loc (pr : R -> string) (sv : saver) (w : wave) : h5 unit :=
  let folder_name := wave_folder pr sv in
  let full_str := wave_key pr (s_source sv) (s_tfinal sv) in
  b <~ h_contains nil folder_name ;;                                                             (* 267-268 *)
  _ <~ (if b then hret tt else h_group nil folder_name) ;;
  g <~ h_open nil folder_name ;;
  _ <~ h_clear g full_str ;;                                                                     (* 272-273 *)
  _ <~ h_clear g ("tpnts_" ++ full_str) ;;
  _ <~ h_clear g ("left_" ++ full_str) ;;
  _ <~ h_clear g ("right_" ++ full_str) ;;
  _ <~ h_clear g ("T_wave_" ++ full_str) ;;
  _ <~ h_data g ("tpnts_" ++ full_str) (A1 (w_t w)) ;;
  _ <~ h_data g ("left_" ++ full_str) (A1 (w_left w)) ;;
  _ <~ h_data g ("right_" ++ full_str) (A1 (w_right w)) ;;
  _ <~ h_data g ("T_wave_" ++ full_str) (A1 (w_T w)) ;;
  hret tt.
(** save_output.py wavepoints_file_path (18) and load_solution.py wavepoints_file_path (22). *)
Definition wave_save_file : string := "wavepoints_crc.hdf5".
Definition wave_load_file : string := "wavepoints.h5".

(** A one-dimensional array read back. *)
Definition read1 (f : node) (g : list string) (name : string) : result (list R) :=
  a <- read f g name ;; match a with A1 v => Ok v | _ => Err TypeError end.
(** The four arrays of a wave record in an existing group. *)
Definition read_wave (f : node) (g : list string) (full_str : string) : result wave :=
  t <- read1 f g ("tpnts_" ++ full_str) ;;
  l <- read1 f g ("left_" ++ full_str) ;;
  r <- read1 f g ("right_" ++ full_str) ;;
  T <- read1 f g ("T_wave_" ++ full_str) ;;
  Ok {| w_t := t; w_left := l; w_right := r; w_T := T |}.
(** The branches of call_wavepoints that bind the folder (96-108, 113-142): a missing record gives a single point
    at zero. *)
Definition wave_branch (folder : string) (full_str : string) (tfinal : R) : h5 wave :=
  b <~ h_contains nil folder ;;
  _ <~ (if b then hret tt else h_group nil folder) ;;
  g <~ h_open nil folder ;;
  b <~ h_contains g ("tpnts_" ++ full_str) ;;
  if b then fun f => (read_wave f g full_str, f)
  else hret {| w_t := [tfinal]; w_left := [0]; w_right := [0]; w_T := [0] |}.
(** load_solution.py call_wavepoints (83-157).  The branch for 'su_olson_thick' (88-94) and the last branch
    (145-151) read three arrays and then use [folder_name], which is not bound there. *)
Definition call_wavepoints (pr : R -> string) (ld : loader) (tfinal : R) : h5 wave :=
  let problem_name := load_folder pr ld in
  let full_str := wave_key pr (l_source ld) tfinal in
  let three (g : list string) : h5 wave :=
    fun f => (_ <- read1 f g ("tpnts_" ++ full_str) ;;
              _ <- read1 f g ("left_" ++ full_str) ;;
              _ <- read1 f g ("right_" ++ full_str) ;;
              Err UnboundLocal, f) in
  if String.eqb problem_name "su_olson_thick"
  then b <~ h_contains nil problem_name ;;
       _ <~ (if b then hret tt else h_group nil problem_name) ;;
       g <~ h_open nil problem_name ;; three g
  else if String.eqb problem_name "su_olson_thick_s2" then wave_branch "su_olson_thick_s2" full_str tfinal
  else if String.eqb problem_name "rad_transfer_constant_cv_thick"
  then wave_branch ("transfer_const_cv=" ++ pr (l_cv ld) ++ "_thick") full_str tfinal
  else if String.eqb problem_name "rad_transfer_constant_cv_thick_s2"
  then wave_branch ("transfer_const_cv=" ++ pr (l_cv ld) ++ "_thick_s2") full_str tfinal
  else g <~ h_open nil problem_name ;; three g.
