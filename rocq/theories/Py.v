(** Prelude: python results, numpy-like arrays of reals.

    Nothing in this file is specific to one source file of /repo; each definition says which python
    or numpy construct it stands for.  float64 is read as R (exact arithmetic). *)
From Coq Require Export Reals List Arith ZArith Lia Lra Bool.
Export ListNotations.
Open Scope R_scope.

(** Exceptions as values.  [NaN] stands for a numpy division by zero (numpy would go on with inf/nan). *)
Inductive exn :=
  AssertionError | UnboundLocal | IndexError | KeyError | TypeError | AttributeError
| ValueError | Uninit | NaN | NoTermination | OSError | ZeroDivision.

Inductive result (A : Type) := Ok (a : A) | Err (e : exn).
Arguments Ok {A} a.
Arguments Err {A} e.

Definition bind {A B} (r : result A) (f : A -> result B) : result B :=
  match r with Ok a => f a | Err e => Err e end.
Notation "x <- r ;; k" := (bind r (fun x => k)) (at level 61, r at next level, right associativity).

(** python [xs[i]], i >= 0; out of range is an error (numba does not check; numpy raises). *)
Definition getitem {A} (xs : list A) (i : nat) : result A :=
  match nth_error xs i with Some x => Ok x | None => Err IndexError end.
(** python [xs[-k]], k >= 1. *)
Definition getneg {A} (xs : list A) (k : nat) : result A :=
  if (length xs <? k)%nat then Err IndexError else getitem xs (length xs - k).
(** python [xs[i] = v], i >= 0. *)
Definition setitem {A} (xs : list A) (i : nat) (v : A) : result (list A) :=
  if (i <? length xs)%nat then Ok (firstn i xs ++ v :: skipn (S i) xs) else Err IndexError.
(** python [xs[-k] = v], k >= 1. *)
Definition setneg {A} (xs : list A) (k : nat) (v : A) : result (list A) :=
  if (length xs <? k)%nat then Err IndexError else setitem xs (length xs - k) v.
(** python [xs[a:b]] for 0 <= a, 0 <= b (clamped as python does). *)
Definition slice {A} (xs : list A) (a b : nat) : list A := firstn (b - a) (skipn a xs).
(** python [xs[a:]]. *)
Definition slice_from {A} (xs : list A) (a : nat) : list A := skipn a xs.
(** python [xs[:-1]]. *)
Definition drop_last {A} (xs : list A) : list A := removelast xs.
(** numpy [xs[a:b] = ys]: shapes must agree, an array of length one is broadcast. *)
Definition setslice {A} (xs : list A) (a b : nat) (ys : list A) : result (list A) :=
  let tgt := slice xs a b in
  let put zs := Ok (firstn a xs ++ zs ++ skipn (a + length tgt) xs) in
  if (length ys =? length tgt)%nat then put ys
  else match ys with
       | [y] => put (repeat y (length tgt))
       | _ => Err ValueError
       end.
(** numpy [xs[a:b] = v] with a scalar v. *)
Definition fillslice {A} (xs : list A) (a b : nat) (v : A) : list A :=
  let n := length (slice xs a b) in firstn a xs ++ repeat v n ++ skipn (a + n) xs.

Fixpoint map2 {A B C} (f : A -> B -> C) (xs : list A) (ys : list B) : list C :=
  match xs, ys with x :: xs', y :: ys' => f x y :: map2 f xs' ys' | _, _ => [] end.

(** numpy elementwise operation on two one-dimensional arrays, with length-one broadcasting. *)
Definition vop (f : R -> R -> R) (xs ys : list R) : result (list R) :=
  if (length xs =? length ys)%nat then Ok (map2 f xs ys)
  else match xs, ys with
       | [x], _ => Ok (map (f x) ys)
       | _, [y] => Ok (map (fun x => f x y) xs)
       | _, _ => Err ValueError
       end.
Definition vadd := vop Rplus.
Definition vsub := vop Rminus.
Definition vmul := vop Rmult.
(** array op scalar *)
Definition vscale (xs : list R) (k : R) : list R := map (fun x => x * k) xs.
Definition vshift (xs : list R) (k : R) : list R := map (fun x => x + k) xs.
(** array / scalar; a zero scalar is reported unless the array is empty. *)
Definition vdivs (xs : list R) (k : R) : result (list R) :=
  match xs with
  | [] => Ok []
  | _ => if Req_EM_T k 0 then Err NaN else Ok (map (fun x => x / k) xs)
  end.

Definition Rltb (a b : R) : bool := if Rlt_dec a b then true else false.
Definition Rleb (a b : R) : bool := if Rle_dec a b then true else false.
Definition Rgtb (a b : R) : bool := Rltb b a.
Definition Rgeb (a b : R) : bool := Rleb b a.
Definition Reqb (a b : R) : bool := if Req_EM_T a b then true else false.

(** np.zeros(n) *)
Definition zeros (n : nat) : list R := repeat 0 n.
(** np.linspace(a, b, n): n points, [a] alone when n = 1. *)
Definition linspace (a b : R) (n : nat) : list R :=
  map (fun i => a + INR i * ((b - a) / INR (n - 1))) (seq 0 n).

(** sum over a list, and sum_{i<n} f i *)
Definition rsum (l : list R) : R := fold_right Rplus 0 l.
Fixpoint sumn (n : nat) (f : nat -> R) : R :=
  match n with O => 0 | S k => sumn k f + f k end.
