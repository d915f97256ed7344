(** Model of the five tests inside /repo/moving_mesh_transport/solver_classes/chebyshev_matrix_builder.py (152-264): the
    answers they expect and the comparison with the matrices the class builds (LeftoverModel.v).
    The file reader is reduced to the two sizes the class takes from its arrays, M and N.  [math] is whether the module
    has the name math, which it does not import.  float64 -> R.  Printing is left out. *)
From Verif Require Import Py LeftoverModel.

(** 161-164 *)
Definition mass_answer1 : list (list R) :=
  [[106391/10000; 131281/100000; -282287/100000; -737613/1000000]; [131281/100000; 171941/100000; 287596/1000000; -100307/100000]; [-282287/100000;
  287596/1000000; 506152/100000; 556503/1000000]; [-737613/1000000; -100307/100000; 556503/1000000; 245695/100000]].
(** 168-170 *)
Definition mass_answer2 : list (list R) :=
  [[533434/100; 133358/100; -198132/100; -80015/100]; [133358/100; 116847/100; 266717/1000; -593651/1000]; [-198132/100; 266717/1000; 25263/10;
  571536/1000]; [-80015/100; -593651/1000; 571536/1000; 153895/100]].
(** 184-187 *)
Definition J_answer : list (list R) :=
  [[264494/100000; 34924/100000; -87481/100000; -182935/1000000]; [34924/100000; 439236/1000000; 831525/10000000; -263743/1000000]; [-87481/100000;
  831525/10000000; 123496/100000; 146418/1000000]; [-182935/1000000; -263743/1000000; 146418/1000000; 640295/1000000]].
(** 198-209 *)
Definition G_answer : list (list R) :=
  [[0; 0; 0; 0; 0; 0; 0; 0]; [-277708/100000; -136045/100000; 61974/100000; 799098/1000000; 356574/1000000; 204476/1000000; 12592/100000;
  93148/1000000]; [-432251/100000; -381712/100000; -868101/1000000; 188638/100000; 159962/100000; 765048/1000000; 451086/1000000; 313371/1000000];
  [-361769/100000; -444236/100000; -497099/100000; -124353/100000; 304051/100000; 276449/100000; 137603/100000; 872109/1000000]; [-34724/10000;
  -38615/10000; -544577/100000; -610415/100000; -834028/1000000; 439949/100000; 365833/100000; 188573/100000]; [-339215/100000; -361389/100000;
  -4249/1000; -635325/100000; -745529/100000; -123442/100000; 557079/100000; 487138/100000]; [-336978/100000; -34971/10000; -385534/100000;
  -485213/100000; -748003/100000; -862277/100000; -828178/1000000; 694605/100000]; [-335021/100000; -344807/100000; -367671/100000; -426331/100000;
  -535802/100000; -845159/100000; -999588/100000; -123205/100000]].
(** 223-225 *)
Definition L_answer : list (list R) :=
  [[0; 0; 0; 0]; [379067/10000; 180067/10000; -18328/1000; -11029/1000]; [232533/10000; 56641/1000; 533333/100000; -357705/10000]; [387194/10000;
  510568/10000; 739869/10000; 17365/1000]].
(** 237-252 *)
Definition VV_answer : list (list (list R)) :=
  [[[547467/10000; 290667/100000; -894248/100000; -157333/100000]; [290667/100000; 708013/100000; 666667/1000000; -447132/100000]; [-894248/100000;
  666667/1000000; 264629/10000; 122483/100000]; [-157333/100000; -447132/100000; 122483/100000; 106005/10000]]; [[290667/100000; 708013/100000;
  666667/1000000; -447132/100000]; [708013/100000; 388036/100000; 130441/100000; -573945/1000000]; [666667/1000000; 130441/100000; 945748/1000000;
  306459/100000]; [-447132/100000; -573945/1000000; 306459/100000; 291088/100000]]; [[-894248/100000; 666667/1000000; 264629/10000; 122483/100000];
  [666667/1000000; 130441/100000; 945748/1000000; 306459/100000]; [264629/10000; 945748/1000000; -690314/100000; -11557/100000]; [122483/100000;
  306459/100000; -11557/100000; -42126/10000]]; [[-157333/100000; -447132/100000; 122483/100000; 106005/10000]; [-447132/100000; -573945/1000000;
  30645/10000; 291088/100000]; [122483/100000; 306459/100000; -11557/100000; -42126/10000]; [106005/10000; 291088/100000; -42126/10000;
  -301607/100000]]; [[-182084/100000; -101517/100000; -486381/100000; 134219/100000]; [-101517/100000; -271113/100000; 163511/1000000; 332331/100000];
  [-486381/100000; 163511/1000000; 12667/1000; 186086/1000000]; [134219/100000; 332331/100000; 186086/1000000; -262021/100000]]].

(** numpy.testing.assert_allclose(actual, desired, rtol) on the rows 0..3 and columns 0..3 *)
Definition close (rtol a d : R) : bool := Rleb (Rabs (a - d)) (rtol * Rabs d).
Definition entry (t : list (list R)) (i j : nat) : R := nth j (nth i t []) 0.
Definition allclose44 (rtol : R) (a d : nat -> nat -> R) : bool :=
  forallb (fun i => forallb (fun j => close rtol (a i j) (d i j)) (seq 0 4)) (seq 0 4).
Definition assert_close (rtol : R) (a : nat -> nat -> R) (answer : list (list R)) : result unit :=
  if allclose44 rtol a (entry answer) then Ok tt else Err AssertionError.

(** 152-172: the matrix is built before the size is looked at *)
Definition mass_test (math : bool) (M : nat) : result unit :=
  a <- b_mass math (1246/1000) (32349/10000) ;;
  if (M =? 3)%nat then
    _ <- assert_close (1/100000) a mass_answer1 ;;
    b <- b_mass math 0 (252/10) ;; assert_close (1/100000) b mass_answer2
  else Ok tt.
(** 175-188 *)
Definition J_test (math : bool) (M : nat) : result unit :=
  a <- b_J math (112/10000) (23/10) ;;
  if (M =? 3)%nat then assert_close (1/100000) a J_answer else Ok tt.
(** 190-212 *)
Definition G_test (math : bool) (M : nat) : result unit :=
  if (M =? 3)%nat then a <- b_G math (42/100) (12/10) (1/10) (23/10) ;; assert_close (1/100000) a G_answer else Ok tt.
(** 215-228 *)
Definition L_test (M : nat) : result unit := if (M =? 3)%nat then assert_close (1/100000) b_L L_answer else Ok tt.
(** 229-264: 256 subtracts arrays whose first sizes are 5 and N+1; the loop (257-263) reads ob.VV[nn] for nn up to 4, at
    nn = 1 for the first time where the difference is 2.90667 *)
Definition VV_test (M N : nat) : result unit :=
  if (M =? 3)%nat then
    if (N =? 4)%nat then
      if forallb (fun n => allclose44 (1/10000) (b_VV n) (entry (nth n VV_answer []))) (seq 0 5) then Ok tt else Err AssertionError
    else if (N =? 0)%nat then Err IndexError else Err ValueError
  else Ok tt.
