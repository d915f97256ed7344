(** Model of run_all (306-331) in /repo/moving_mesh_transport/solver_functions/run_functions.py: four runs of the square
    pulse one after another; the other calls in it are comments.  As in DriverModel.v the disk and the number of
    solver calls made so far are passed on from run to run; printing and plotting are left out. *)
From Coq Require Import String.
From Verif Require Import Py ConfigModel StoreModel DriverModel.
Open Scope string_scope.
Open Scope R_scope.

(** statements self.square_IC(uncollided, moving) in a row (312-315): the first exception ends them *)
Fixpoint square_runs (pr : R -> string) (solve : nat -> config -> call -> result outcome) (parameters mesh : yval)
    (flags : list (bool * bool)) (fields : option run_fields) (d : disk) (calls : nat)
  : result unit * option run_fields * disk * nat :=
  match flags with
  | nil => (Ok tt, fields, d, calls)
  | (uncollided, moving) :: rest =>
      let '(r, f, s) := run_problem pr solve "square_IC" parameters mesh uncollided moving false fields d calls in
      let '(d', calls') := match s with Some st => (m_disk st, m_calls st) | None => (d, calls) end in
      match r with
      | Err e => (Err e, f, d', calls')
      | Ok _ => square_runs pr solve parameters mesh rest f d' calls'
      end
  end.
(** 306-331 *)
Definition run_all (pr : R -> string) (solve : nat -> config -> call -> result outcome) (parameters mesh : yval)
    (fields : option run_fields) (d : disk) (calls : nat) : result unit * option run_fields * disk * nat :=
  square_runs pr solve parameters mesh [(true, true); (true, false); (false, true); (false, false)] fields d calls.
