(* Model of tvm/diagnostic/matrix.h.  A matrix is what Eigen knows of it: the address of its first coefficient, its sizes
   and its strides; addresses are counted in scalars (the addresses compared are those of scalars; the difference of two
   pointers in distinct allocations, which C++ leaves undefined, is the difference of the addresses). *)
Require Import ZArith QArith Qabs List Bool.
Require Import Verif.Base.
Import ListNotations.
Local Open Scope Z_scope.

Record emat := mkEmat { e_data : Z; e_rows : Z; e_cols : Z; e_rowStride : Z; e_colStride : Z }.
(* & A.coeff(i, j): Eigen's, no verification of the indices in release *)
Definition coeffAddr (A : emat) (i j : Z) : Z := e_data A + i * e_rowStride A + j * e_colStride A.
(* the operator % of C++: undefined for 0 *)
Definition modulo (a b : Z) : res Z := if b =? 0 then UB else Ok (Z.rem a b).
(* isInMatrix, matrix.h:17-41 (column-major branch) *)
Definition isInMatrix (p : Z) (M : emat) : res bool :=
  let d := p - e_data M in
  if d <? 0 then Ok false
  else if e_cols M * e_colStride M <=? d then Ok false
  else do r <- modulo d (e_colStride M);
    if e_rows M * e_rowStride M <=? r then Ok false
    else do s <- modulo r (e_rowStride M); Ok (s =? 0).
(* isInMatrix of a coefficient, lines 47-49 *)
Definition coeffInMatrix (A : emat) (i j : Z) (M : emat) : res bool := isInMatrix (coeffAddr A i j) M.
(* A.block(i, j, h, w): Eigen's *)
Definition block (A : emat) (i j h w : Z) : emat := mkEmat (coeffAddr A i j) h w (e_rowStride A) (e_colStride A).
(* Map<MatrixXd, 0, Stride<-1, -1>>(&A.coeff(i, j), h, w, Stride(c * outer, r * inner)): Eigen's *)
Definition mapOf (A : emat) (i j h w r c : Z) : emat := mkEmat (coeffAddr A i j) h w (r * e_rowStride A) (c * e_colStride A).

(* doubles, with their special values *)
Inductive fl := Nan | Inf (negative : bool) | Fin (q : Q).
Definition flAbs (x : fl) : fl := match x with Nan => Nan | Inf _ => Inf false | Fin q => Fin (Qabs q) end.
(* <= of IEEE 754 *)
Definition flLe (x y : fl) : bool :=
  match x, y with
  | Nan, _ | _, Nan => false
  | Inf true, _ => true
  | _, Inf false => true
  | Inf false, _ => false
  | _, Inf true => false
  | Fin p, Fin q => Qle_bool p q
  end.
(* hasElemAbsInRange, lines 51-56; the coefficients in any order *)
Definition hasElemAbsInRange (A : list fl) (emin emax : fl) : bool :=
  existsb (fun e => flLe emin (flAbs e) && flLe (flAbs e) emax) A.
