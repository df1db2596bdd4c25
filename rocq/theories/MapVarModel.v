(* Model of tvm::utils::internal::MapWithVariableAsKey (include/tvm/utils/internal/MapWithVariableAsKey.h)
   over the variables of VariableModel.v, and of its uses for the jacobians
   (include/tvm/internal/FirstOrderProvider.h:83-98, 179, 192-196) and for JDot
   (include/tvm/function/abstract/Function.h:59-65, 92, 103-104).
   The map is the list of its pairs (variable, matrix) in the order of the identifiers of the
   variables.  A matrix is the list of its columns, of any type.  The properties attached to the
   matrices are left out. *)
Require Import ZArith List Bool.
Require Import Verif.Base Verif.RangeModel Verif.SpaceModel Verif.VariableModel.
Import ListNotations.
Local Open Scope Z_scope.

Section Map.
Context {A : Type}.
Definition vmap := list (nat * list A).

(* Base::find, std::map with the pointers as keys *)
Fixpoint find (m : vmap) (key : nat) : option (list A) :=
  match m with [] => None | (x, J) :: m => if Nat.eqb x key then Some J else find m key end.
(* Eigen: M.middleCols(r.start, r.dim), slice_matrix::get and slice_jdot::get *)
Definition middleCols (M : list A) (r : Range) : res (list A) :=
  if (0 <=? start r) && (0 <=? dim r) && (rend r <=? Z.of_nat (length M)) then Ok (firstn (Z.to_nat (dim r)) (skipn (Z.to_nat (start r)) M)) else UB.
(* lines 89-107 and 61-79: the loop over the variables of the map *)
Fixpoint atLoop (tS : bool) (h : heap) (m : vmap) (key : nat) : res (list A) :=
  match m with
  | [] => Throw
  | (x, J) :: m =>
      do c <- vcontains h x key;
      if c then
        do e <- veq h x key;
        if e then Ok J
        else
          do rx <- (if tS then tSubvariableRange h x else subvariableRange h x);
          do ry <- (if tS then tSubvariableRange h key else subvariableRange h key);
          middleCols J (relativeRange rx ry)
      else atLoop tS h m key
  end.
(* at(key, with_sub), both versions *)
Definition mapAt (tS : bool) (h : heap) (m : vmap) (key : nat) : res (list A) :=
  match find m key with Some J => Ok J | None => atLoop tS h m key end.
(* FirstOrderProvider.h:179 and 192 *)
Definition jacobian := mapAt true.
(* Function.h:92 and 103 *)
Definition JDot := mapAt false.
End Map.
Arguments vmap : clear implicits.
