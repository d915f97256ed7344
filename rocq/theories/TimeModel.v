(** The time integration, main_functions.py 183 in /repo/moving_mesh_transport/solver_functions: scipy's solve_ivp is
    called with the right-hand side, the interval from 0 to tfinal, the initial coefficients, the name of the method
    and a maximal step.  scipy is not part of the repository; what is assumed of it here is that the method is a
    Runge-Kutta method ('RK23', 'RK45', 'DOP853' and 'Radau' are), that is, one step from time t to t + h forms slopes k i from the
    right-hand side at the times t + c i h and adds h times their weighted sum.  Nothing is assumed about the numbers of
    the method or about how step lengths are chosen.  Real arithmetic; the equations for the slopes of an implicit method
    are solved exactly.  Definitions only. *)
From Verif Require Import Py.

(** the numbers of a method: how many slopes, matrix, weights, times *)
Record tableau := Tab { rs : nat; rA : nat -> nat -> R; rb : nat -> R; rc : nat -> R }.
Section Step.
Variable I : Type.
(** the slopes of a step of length h from the state y at time t, for the right-hand side F *)
Definition stage (T : tableau) (h : R) (y : I -> R) (k : nat -> I -> R) (i : nat) : I -> R :=
  fun q => y q + h * sumn (rs T) (fun j => rA T i j * k j q).
Definition rk_slopes (T : tableau) (F : R -> (I -> R) -> I -> R) (t h : R) (y : I -> R) (k : nat -> I -> R) : Prop :=
  forall i p, (i < rs T)%nat -> k i p = F (t + rc T i * h) (stage T h y k i) p.
Definition rk_result (T : tableau) (h : R) (y : I -> R) (k : nat -> I -> R) (y' : I -> R) : Prop :=
  forall p, y' p = y p + h * sumn (rs T) (fun i => rb T i * k i p).
Definition rk_step (T : tableau) (F : R -> (I -> R) -> I -> R) (t h : R) (y y' : I -> R) : Prop :=
  exists k, rk_slopes T F t h y k /\ rk_result T h y k y'.
(** steps of the lengths in a list *)
Fixpoint rk_run (T : tableau) (F : R -> (I -> R) -> I -> R) (t : R) (y : I -> R) (hs : list R) (y' : I -> R) : Prop :=
  match hs with
  | nil => forall p, y' p = y p
  | h :: r => exists y1, rk_step T F t h y y1 /\ rk_run T F (t + h) y1 r y'
  end.
End Step.
Arguments stage {I}. Arguments rk_slopes {I}. Arguments rk_result {I}. Arguments rk_step {I}. Arguments rk_run {I}.

(** the slopes can be formed one after the other *)
Definition explicit (T : tableau) : Prop := forall i j, (i < rs T)%nat -> (i <= j < rs T)%nat -> rA T i j = 0.
(** the weights have sum one, the times lie inside the step *)
Definition consistent (T : tableau) : Prop := sumn (rs T) (rb T) = 1 /\ forall i, (i < rs T)%nat -> 0 <= rc T i <= 1.
(** Euler's two methods, and the method of 'RK45' (Dormand and Prince; the seventh slope serves the error estimate) *)
Definition euler : tableau := Tab 1 (fun _ _ => 0) (fun _ => 1) (fun _ => 0).
Definition implicit_euler : tableau := Tab 1 (fun _ _ => 1) (fun _ => 1) (fun _ => 1).
Definition rk45_rows : list (list R) :=
  [[]; [1/5]; [3/40; 9/40]; [44/45; -56/15; 32/9]; [19372/6561; -25360/2187; 64448/6561; -212/729];
   [9017/3168; -355/33; 46732/5247; 49/176; -5103/18656]].
Definition rk45 : tableau := Tab 6 (fun i j => nth j (nth i rk45_rows []) 0)
  (fun i => nth i [35/384; 0; 500/1113; 125/192; -2187/6784; 11/84] 0) (fun i => nth i [0; 1/5; 3/10; 4/5; 8/9; 1] 0).
(** the method of 'RK23' (Bogacki and Shampine; the fourth slope serves the error estimate) *)
Definition rk23 : tableau := Tab 3 (fun i j => nth j (nth i [[]; [1/2]; [0; 3/4]] []) 0) (fun i => nth i [2/9; 1/3; 4/9] 0) (fun i => nth i [0; 1/2; 3/4] 0).
