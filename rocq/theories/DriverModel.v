(** The driver.
    Covers moving_mesh_transport/solver.py: main_class.main (39-313),
    moving_mesh_transport/solver_functions/main_functions.py: parameter_function (46-53),
    s2_source_type_selector (56-76), time_step_function (79-84), x0_function (287-292), and
    moving_mesh_transport/solver_functions/run_functions.py: the nine problem methods (57-284), get_results (290-303).

    Simplifications
    - [solve] (main_functions.py 99) is a parameter: what it returns may depend on how often it was called before
      (computing times differ from call to call).
    - Printing and plotting have no effect.  Benchmarks (solver.py 45-52, 65-75, 236-273, 305-313) are not modelled:
      a run with benchmarking on is outside the model ([Err Uninit] stands for it).
    - Results of one time are a time series of length one. *)
From Coq Require Import String.
From Verif Require Import Py ConfigModel StoreModel.
Open Scope string_scope.
Open Scope R_scope.

(** main_functions.py parameter_function (46-53): (N_space, M). *)
Definition parameter_function {A B} (major : string) (N_spaces : list A) (Ms : list B) (count : nat)
  : result (A * B) :=
  if String.eqb major "cells"
  then M <- getitem Ms count ;; N <- getitem N_spaces count ;; Ok (N, M)
  else if String.eqb major "Ms"
  then N <- getitem N_spaces 1 ;; M <- getitem Ms count ;; Ok (N, M)
  else Err UnboundLocal.

(** main_functions.py x0_function (287-292); an integer is true when it is not zero. *)
Definition x0_function {A} (x0 : list A) (source_type : list Z) (count : nat) : result A :=
  s3 <- getitem source_type 3 ;;
  moving_width <- (if negb (s3 =? 0)%Z then Ok true
                   else s4 <- getitem source_type 4 ;; Ok (s4 =? 1)%Z) ;;
  if (moving_width : bool) then getitem x0 count else getitem x0 0.

(** A vector of 16 zeros with a one at [i]. *)
Definition onehot16 (i : nat) : list Z := map (fun j => if (j =? i)%nat then 1%Z else 0%Z) (seq 0 16).
(** main_functions.py s2_source_type_selector (56-76). *)
Definition s2_source_type_selector (sigma x0 : R) (source_type : list Z) : result (list Z * list Z) :=
  s5 <- getitem source_type 5 ;;
  if (s5 =? 1)%Z
  then if Reqb sigma 300 then Ok (onehot16 12, onehot16 13)
       else if Reqb sigma (1/2) then Ok (onehot16 10, onehot16 11)
       else Err UnboundLocal
  else s2 <- getitem source_type 2 ;;
       if (s2 =? 1)%Z
       then if Reqb x0 400 then Ok (onehot16 14, onehot16 15)
            else if Reqb x0 (1/2) then Ok (onehot16 8, onehot16 9)
            else Err UnboundLocal
       else Err UnboundLocal.

(** main_functions.py time_step_function (79-84); np.zeros(-1) of an empty array is a ValueError. *)
Definition time_step_function (t_array : list R) : result (list R) :=
  match t_array with
  | nil => Err ValueError
  | _ => Ok (map (fun i => nth (S i) t_array 0 - nth i t_array 0) (seq 0 (length t_array - 1)))
  end.

(** What [solve] returns, as far as the driver uses it (solver.py 125-132). *)
Record outcome := {
  out_xs : list (list R); out_phi : list (list R); out_psi : list (list (list R)); out_e : list (list R);
  out_coeff : list (list (list R)); out_edges : list R; out_ws : list R; out_mus : list R;
  out_wave : wave; out_time : R }.
(** What the driver hands to [solve] besides the configuration (solver.py 125). *)
Record call := {
  a_N_space : yval; a_N_ang : yval; a_M : yval; a_x0 : yval; a_uncollided : bool; a_moving : bool;
  a_wave : option wave }.

(** The solver object and the disk while main runs.  [m_results] are the attributes xs, phi, e, psi, exit_dist, ws,
    angles, exit_phi (solver.py 216-223), [m_wave] the attribute wave_loc_array (None: unset; Some None: the array
    of zeros of 100). *)
Record state := {
  m_results : option outcome; m_r_times : list R; m_wave : option (option wave); m_disk : disk; m_calls : nat }.

(** A step of the driver: like [h5], errors keep the state. *)
Definition act (A : Type) := state -> result A * state.
Definition abind {A B} (m : act A) (k : A -> act B) : act B :=
  fun s => match m s with (Ok a, s') => k a s' | (Err e, s') => (Err e, s') end.
Notation "x <<- m ;; k" := (abind m (fun x => k)) (at level 61, m at next level, right associativity).
Definition aret {A} (a : A) : act A := fun s => (Ok a, s).
(** A computation that does not touch the state. *)
Definition pure {A} (r : result A) : act A := fun s => (r, s).
Definition on_disk {A} (m : disk -> result A * disk) : act A :=
  fun s => let '(r, d) := m (m_disk s) in
           (r, {| m_results := m_results s; m_r_times := m_r_times s; m_wave := m_wave s; m_disk := d;
                  m_calls := m_calls s |}).
Fixpoint for_each {A} (f : nat -> A -> act unit) (i : nat) (l : list A) : act unit :=
  match l with nil => aret tt | a :: l' => _ <<- f i a ;; for_each f (S i) l' end.

(** The entries of an array. *)
Definition entries (a : yarr) : list yval := match a with Arr0 _ => nil | Arr1 l => l end.
(** A number out of a configuration value. *)
Definition num (v : yval) : result R := d <- float_of v ;; Ok (dec2R d).
(** A cell count out of a configuration value. *)
Definition count_of (v : yval) : result nat := z <- int_of v ;; Ok (Z.to_nat z).

(** solver.py 148-151: the width in the key. *)
Definition x0_or_sigma (c : config) : result R :=
  if (fst (c_sigma c) =? 0)%Z then v <- item_of (c_x0 c) 0 ;; num v else Ok (dec2R (c_sigma c)).

(** solver.py 41-44, 163-166: the saver of a run at time [t]. *)
Definition saver_of (c : config) (t : R) (uncollided moving : bool) : result saver :=
  save_output t (c_source_type c) moving uncollided (c_ratio c) (dec2R (c_cv0 c)) (c_problem c)
    (dec2R (c_epsilon c)).

(** Row [i] of what was returned, with the final edges, coefficients, energies, weights and directions
    (solver.py 160, 168). *)
Definition row (o : outcome) (i : nat) : result solution :=
  xs <- getitem (out_xs o) i ;; phi <- getitem (out_phi o) i ;; psi <- getitem (out_psi o) i ;;
  Ok {| o_xs := xs; o_phi := phi; o_e := concat (out_e o); o_coeff := out_coeff o; o_edges := out_edges o;
        o_ws := out_ws o; o_psi := psi; o_mus := out_mus o |}.

(** solver.py 153-168: saving.  The number of directions decides [s2], which save_solution does not use. *)
Definition save_results (pr : R -> string) (c : config) (sv : saver) (o : outcome) (w : R) (N_space : nat)
    (s2 : bool) (uncollided moving : bool) : act unit :=
  if (c_saving c =? 1)%Z
  then if (c_eval_times c =? 0)%Z
       then r <<- pure (row o 0) ;;
            on_disk (save_to_disk pr sv r w N_space s2 (dec2R (c_epsilon c)))
       else for_each (fun it v =>
              t <<- pure (num v) ;;
              sv' <<- pure (saver_of c t uncollided moving) ;;
              r <<- pure (row o it) ;;
              on_disk (save_to_disk pr sv' r w N_space s2 (dec2R (c_epsilon c)))) 0 (entries (c_eval_array c))
  else aret tt.

(** solver.py 171: [self.r_times[count] += time/self.N_runs]. *)
Definition add_time (i : nat) (t : R) : act unit :=
  fun s => match getitem (m_r_times s) i with
           | Err e => (Err e, s)
           | Ok old =>
               match setitem (m_r_times s) i (old + t) with
               | Err e => (Err e, s)
               | Ok ts => (Ok tt, {| m_results := m_results s; m_r_times := ts; m_wave := m_wave s;
                                     m_disk := m_disk s; m_calls := m_calls s |})
               end
           end.
Definition set_results (o : outcome) : act unit :=
  fun s => (Ok tt, {| m_results := Some o; m_r_times := m_r_times s; m_wave := m_wave s; m_disk := m_disk s;
                      m_calls := m_calls s |}).
Definition set_wave (w : option wave) : act unit :=
  fun s => (Ok tt, {| m_results := m_results s; m_r_times := m_r_times s; m_wave := Some w; m_disk := m_disk s;
                      m_calls := m_calls s |}).
(** Reading self.wave_loc_array (solver.py 129). *)
Definition get_wave : act (option wave) :=
  fun s => (match m_wave s with Some w => Ok w | None => Err AttributeError end, s).
(** One call of solve. *)
Definition call_solve (solve : nat -> config -> call -> result outcome) (c : config) (a : call) : act outcome :=
  fun s => (solve (m_calls s) c a,
            {| m_results := m_results s; m_r_times := m_r_times s; m_wave := m_wave s; m_disk := m_disk s;
               m_calls := S (m_calls s) |}).

(** solver.py 80-100: the recorded wave fronts. *)
Definition load_wave (pr : R -> string) (c : config) : act unit :=
  m1 <<- pure (v <- item_of (c_move_type c) 1 ;; int_of v) ;;
  if (m1 =? 1)%Z
  then s2 <<- pure (getitem (c_source_type c) 2) ;;
       let fetch name :=
         w <<- on_disk (on_file wave_load_file
                (call_wavepoints pr {| l_problem := c_problem c; l_source := name; l_rad_or_transfer := "transfer";
                                       l_c := c_ratio c; l_cv := dec2R (c_cv0 c) |} (dec2R (c_tfinal c)))) ;;
         set_wave (Some w) in
       if (c_thick c && (s2 =? 1)%Z)%bool then fetch "square_s"
       else if c_thick c
       then s5 <<- pure (getitem (c_source_type c) 5) ;;
            if (s5 =? 1)%Z then fetch "gaussian_s" else aret tt
       else aret tt
  else set_wave None.

(** solver.py 105-313: one refinement level. *)
Definition level (pr : R -> string) (solve : nat -> config -> call -> result outcome) (c : config) (sv : saver)
    (uncollided moving : bool) (count : nat) (N_ang : yval) : act unit :=
  NM <<- pure (parameter_function (c_major c) (c_N_spaces c) (c_Ms c) count) ;;                   (* 106 *)
  x0 <<- pure (x0_function (entries (c_x0 c)) (c_source_type c) count) ;;                         (* 108 *)
  w <<- get_wave ;;
  o <<- call_solve solve c {| a_N_space := fst NM; a_N_ang := N_ang; a_M := snd NM; a_x0 := x0;
                             a_uncollided := uncollided; a_moving := moving; a_wave := w |} ;;   (* 125 *)
  width <<- pure (x0_or_sigma c) ;;                                                               (* 148-151 *)
  N <<- pure (count_of (fst NM)) ;;
  na <<- pure (count_of N_ang) ;;
  _ <<- save_results pr c sv o width N (na =? 2)%nat uncollided moving ;;                         (* 153-168 *)
  _ <<- add_time count (out_time o / IZR (c_N_runs c)) ;;                                         (* 171 *)
  _ <<- (if (count =? length (c_N_angles c) - 1)%nat then set_results o else aret tt) ;;          (* 215-223 *)
  if (c_find_wave_loc c =? 1)%Z
  then (* with eval_times the name [saving] was bound anew in the loop (163): the last time's saver *)
       sv' <<- (if (negb (c_eval_times c =? 0)%Z && (c_saving c =? 1)%Z)%bool
               then match rev (entries (c_eval_array c)) with
                    | v :: _ => t <<- pure (num v) ;; pure (saver_of c t uncollided moving)
                    | nil => aret sv
                    end
               else aret sv) ;;
       on_disk (on_file wave_save_file (save_wave_loc pr sv' (out_wave o)))                      (* 276-278 *)
  else aret tt.

(** solver.py main (39-313). *)
Definition main (pr : R -> string) (solve : nat -> config -> call -> result outcome) (c : config)
    (uncollided moving : bool) : act unit :=
  sv <<- pure (saver_of c (dec2R (c_tfinal c)) uncollided moving) ;;
  _ <<- (if (c_benchmarking c =? 1)%Z then pure (Err Uninit) else aret tt) ;;
  _ <<- load_wave pr c ;;
  for_each (fun _ _ => for_each (level pr solve c sv uncollided moving) 0 (c_N_angles c)) 0
           (repeat tt (Z.to_nat (c_N_runs c))).

(** The run object of run_functions.py: the fields get_results sets (290-303). *)
Record run_fields := { f_results : option outcome; f_x0 : yarr; f_tfinal : dec; f_v0 : dec; f_t0 : dec;
                       f_eval_array : yarr }.
(** run_functions.py get_results (290-303): an attribute the solver does not have is an AttributeError. *)
Definition get_results (c : config) (s : state) : result run_fields :=
  match m_results s with
  | None => Err AttributeError
  | Some o => Ok {| f_results := Some o; f_x0 := c_x0 c; f_tfinal := c_tfinal c; f_v0 := c_v0 c; f_t0 := c_t0 c;
                    f_eval_array := c_eval_array c |}
  end.

(** The solver object right after main_class(...) on a disk (run_functions.py 64). *)
Definition new_solver (c : config) (d : disk) (calls : nat) : state :=
  {| m_results := None; m_r_times := c_r_times c; m_wave := None; m_disk := d; m_calls := calls |}.

(** run_functions.py, the common part of the nine problem methods (57-73): the run object's fields, the solver's state
    (with the disk) afterwards and whether it raised. *)
Definition run_problem (pr : R -> string) (solve : nat -> config -> call -> result outcome) (source_name : string)
    (parameters mesh : yval) (uncollided moving All : bool) (fields : option run_fields) (d : disk) (calls : nat)
  : result unit * option run_fields * option state :=
  match load source_name parameters mesh with
  | Err e => (Err e, fields, None)
  | Ok c =>
      let s0 := new_solver c d calls in
      if All
      then let '(r, s) := (_ <<- main pr solve c true true ;; _ <<- main pr solve c false true ;;
                           _ <<- main pr solve c true false ;; main pr solve c false false) s0 in
           (r, fields, Some s)
      else let '(r, s) := main pr solve c uncollided moving s0 in
           match r with
           | Err e => (Err e, fields, Some s)
           | Ok _ => match get_results c s with
                     | Err e => (Err e, fields, Some s)
                     | Ok f => (Ok tt, Some f, Some s)
                     end
           end
  end.

(** numpy [if a == 2.5] on an array: one entry is compared, several are ambiguous. *)
Definition equals_2_5 (a : yarr) : result bool :=
  match a with
  | Arr0 v | Arr1 [v] => x <- num v ;; Ok (Reqb x (5/2))
  | Arr1 _ => Err ValueError
  end.
(** run_functions.py square_source (99-124): afterwards it reads self.x0 to decide on a plot. *)
Definition square_source (pr : R -> string) (solve : nat -> config -> call -> result outcome)
    (parameters mesh : yval) (uncollided moving All : bool) (fields : option run_fields) (d : disk) (calls : nat)
  : result unit * option run_fields * option state :=
  match run_problem pr solve "square_source" parameters mesh uncollided moving All fields d calls with
  | (Ok _, f, s) =>
      (match f with
       | None => Err AttributeError
       | Some rf => b <- equals_2_5 (f_x0 rf) ;; Ok tt
       end, f, s)
  | other => other
  end.
(** run_functions.py boundary_source (187-241): afterwards it indexes the opacity dictionary, whose keys are text,
    with numbers (207). *)
Definition boundary_source (pr : R -> string) (solve : nat -> config -> call -> result outcome)
    (parameters mesh : yval) (uncollided moving All : bool) (fields : option run_fields) (d : disk) (calls : nat)
  : result unit * option run_fields * option state :=
  match run_problem pr solve "boundary_source" parameters mesh uncollided moving All fields d calls with
  | (Ok _, f, s) => (if All then Ok tt else Err TypeError, f, s)
  | other => other
  end.
