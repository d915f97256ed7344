(** Model of /repo/moving_mesh_transport/solver_functions/Chebyshev_matrix_reader.py (4-60): the reading of the
    coefficient tables of the spherical matrices.

    An HDF5 file is its 'denominators' array and its 'coefficients' group, a partial map from names to flattened
    arrays; each may be absent.  A file that is absent or cannot be opened for reading and writing is [None]
    (h5py raises an OSError).  Arrays are rectangular: extents and a function. *)
From Coq Require Import String DecimalString.
From Verif Require Import Py MatModel.
Open Scope R_scope.

(** numpy integer arrays with two and three axes (14-18) *)
Record arr2 := { a_rows : nat; a_cols : nat; a_at : nat -> nat -> Z }.
Record arr3z := { z_0 : nat; z_1 : nat; z_2 : nat; z_at : nat -> nat -> nat -> Z }.
(** a file with denominators of type A (9-18) *)
Record h5 (A : Type) := { denominators : option A; coefficients : option (string -> option (list R)) }.
Arguments denominators {A}. Arguments coefficients {A}.
(** the five files (5-6, 9-13) *)
Record files := {
  f_mass : option (h5 arr2); f_J : option (h5 arr2); f_G : option (h5 arr2); f_L : option (h5 arr2); f_VV : option (h5 arr3z) }.

(** f'Element{ii+1}{jj+1}' (32, 37, 39, 42, 44): decimal numerals one after the other *)
Definition numeral (n : nat) : string := NilEmpty.string_of_uint (Nat.to_uint n).
Definition element (ii jj : nat) : string := ("Element" ++ numeral (ii + 1) ++ numeral (jj + 1))%string.

(** opening a file and subscripting it with a name: 9-18, 32-44 *)
Definition opened {A} (f : option (h5 A)) : result (h5 A) := match f with Some h => Ok h | None => Err OSError end.
Definition denoms {A} (h : h5 A) : result A := match denominators h with Some d => Ok d | None => Err KeyError end.
Definition dataset {A} (h : h5 A) (name : string) : result (list R) :=
  match coefficients h with
  | None => Err KeyError
  | Some g => match g name with Some v => Ok v | None => Err KeyError end
  end.

(** the arrays of coefficients, zero outside what is written (22-29) *)
Definition coef := nat -> nat -> nat -> R.
Record coefs := { c_mass_even : coef; c_mass_odd : coef; c_J : coef; c_L_even : coef; c_L_odd : coef }.
(** 22-24, 26-27 *)
Definition no_coefs : coefs := {| c_mass_even := fun _ _ _ => 0; c_mass_odd := fun _ _ _ => 0; c_J := fun _ _ _ => 0;
  c_L_even := fun _ _ _ => 0; c_L_odd := fun _ _ _ => 0 |}.
(** numpy [A[ii, jj] = v] for a last axis of length k: v has k entries, or one that fills the row *)
Definition put (k : nat) (A : coef) (ii jj : nat) (v : list R) : result coef :=
  let at_row (row : nat -> R) : coef := fun i j q => if ((i =? ii) && (j =? jj))%nat then row q else A i j q in
  if (length v =? k)%nat then Ok (at_row (fun q => nth q v 0))
  else match v with [x] => Ok (at_row (fun q => if (q <? k)%nat then x else 0)) | _ => Err ValueError end.

(** the body of the two loops (32-44) *)
Definition read_entry (fm fJ fL : h5 arr2) (c : coefs) (p : nat * nat) : result coefs :=
  let '(ii, jj) := p in
  vJ <- dataset fJ (element ii jj) ;;
  J <- put 2 (c_J c) ii jj vJ ;;
  if ((ii + jj + 2) mod 2 =? 0)%nat then
    vM <- dataset fm (element ii jj) ;;
    Me <- put 3 (c_mass_even c) ii jj vM ;;
    Le <- (if (0 <? ii)%nat then vL <- dataset fL (element ii jj) ;; put 2 (c_L_even c) ii jj vL else Ok (c_L_even c)) ;;
    Ok {| c_mass_even := Me; c_mass_odd := c_mass_odd c; c_J := J; c_L_even := Le; c_L_odd := c_L_odd c |}
  else
    vM <- dataset fm (element ii jj) ;;
    Mo <- put 2 (c_mass_odd c) ii jj vM ;;
    Lo <- (if (0 <? ii)%nat then vL <- dataset fL (element ii jj) ;; put 3 (c_L_odd c) ii jj vL else Ok (c_L_odd c)) ;;
    Ok {| c_mass_even := c_mass_even c; c_mass_odd := Mo; c_J := J; c_L_even := c_L_even c; c_L_odd := Lo |}.
(** 30-31: ii outer, jj inner *)
Fixpoint read_all (fm fJ fL : h5 arr2) (ps : list (nat * nat)) (c : coefs) : result coefs :=
  match ps with
  | [] => Ok c
  | p :: ps' => c' <- read_entry fm fJ fL c p ;; read_all fm fJ fL ps' c'
  end.

(** what __call__ returns (60): five arrays of denominators, the coefficients that are read, and those of G and VV,
    which stay zero (25, 28-29; the statements that would read them are comments, 33-34 and 45-51) *)
Record given := { g_size : nat; g_N : nat; g_mass : arr2; g_J : arr2; g_G : arr2; g_L : arr2; g_VV : arr3z; g_coefs : coefs;
  g_G_coeff : coef; g_VV_even : nat -> coef; g_VV_odd : nat -> coef }.

(** __init__ and __call__ (5-60) *)
Definition file_reader (fs : files) : result given :=
  fm <- opened (f_mass fs) ;;
  fJ <- opened (f_J fs) ;;
  fG <- opened (f_G fs) ;;
  fL <- opened (f_L fs) ;;
  fV <- opened (f_VV fs) ;;
  dm <- denoms fm ;;
  dJ <- denoms fJ ;;
  dG <- denoms fG ;;
  dL <- denoms fL ;;
  dV <- denoms fV ;;
  if (a_rows dm =? 0)%nat then Err IndexError                         (* mass_mat_denom[0], 19 *)
  else if ((z_1 dV =? 0) || (z_2 dV =? 0))%nat then Err IndexError    (* VV_mat_denom[:,0,0], 21 *)
  else
    c <- read_all fm fJ fL (list_prod (seq 0 (a_cols dm)) (seq 0 (a_cols dm))) no_coefs ;;
    Ok {| g_size := a_cols dm; g_N := z_0 dV; g_mass := dm; g_J := dJ; g_G := dG; g_L := dL; g_VV := dV; g_coefs := c;
          g_G_coeff := fun _ _ _ => 0; g_VV_even := fun _ _ _ _ => 0; g_VV_odd := fun _ _ _ _ => 0 |}.

(** solver_functions/main_functions.py 132-133, 159 and solver_classes/matrices.py 69-81: the tables the matrix class is
    given, for every geometry *)
Definition to_tables (g : given) : tables := {|
  Mass_coeff_even := c_mass_even (g_coefs g); Mass_coeff_odd := c_mass_odd (g_coefs g); Mass_denom := a_at (g_mass g);
  J_coeff := c_J (g_coefs g); J_denom := a_at (g_J g);
  L_coeff_even := c_L_even (g_coefs g); L_coeff_odd := c_L_odd (g_coefs g); L_denom := a_at (g_L g) |}.
