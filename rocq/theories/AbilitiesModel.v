(* Model of scheme::internal::SchemeAbilities and LevelAbilities
   (include/tvm/scheme/internal/SchemeAbilities.h, src/scheme/SchemeAbilities.cpp).
   int is Z.  The warning printed when scalarization is used is not modelled. *)
From Coq Require Import ZArith List Bool.
Import ListNotations.
Local Open Scope Z_scope.

(* include/tvm/requirements/ViolationEvaluation.h:24-32 *)
Inductive vet := L1 | L2 | LINF.
Definition vet_eqb (a b : vet) : bool :=
  match a, b with L1, L1 | L2, L2 | LINF, LINF => true | _, _ => false end.

(* include/tvm/constraint/enums.h:13-19 *)
Inductive ctype := EQUAL | GREATER_THAN | LOWER_THAN | DOUBLE_SIDED.
Definition isEqual (t : ctype) : bool := match t with EQUAL => true | _ => false end.

(* Outcome of a check: acceptance, std::runtime_error (the documented way of refusing,
   SchemeAbilities.h:44-47 and 76-80), or the std::out_of_range of std::map::at. *)
Inductive verdict := Accept | RuntimeError | OutOfRange.

(* GeneralLevel and NoLimit, SchemeAbilities.h:25 and 27 *)
Definition GeneralLevel : Z := -1.
Definition NoLimit : Z := GeneralLevel.

(* LevelAbilities, SchemeAbilities.h:32-55 *)
Record level := mkLevel { lv_ineq : bool; lv_types : list vet }.

(* std::map<int, LevelAbilities>::find; initializer lists keep the first entry of a key. *)
Fixpoint find (p : Z) (m : list (Z * level)) : option level :=
  match m with
  | [] => None
  | (q, l) :: m' => if p =? q then Some l else find p m'
  end.

(* SchemeAbilities, SchemeAbilities.h:84-88 *)
Record abilities := mkAb { ab_n : Z; ab_scal : bool; ab_map : list (Z * level) }.

(* the loop SchemeAbilities.cpp:39-47: every level below n has an entry *)
Fixpoint levelsGiven (i : nat) (m : list (Z * level)) : bool :=
  match i with
  | O => true
  | S j => levelsGiven j m && match find (Z.of_nat j) m with Some _ => true | None => false end
  end.

(* SchemeAbilities::SchemeAbilities, SchemeAbilities.cpp:23-55; None is std::runtime_error *)
Definition make (n : Z) (m : list (Z * level)) (scal : bool) : option abilities :=
  if (n <? 0) && negb (n =? NoLimit) then None
  else if 0 <=? n then
    match find GeneralLevel m with
    | Some _ => Some (mkAb n scal m)
    | None => if levelsGiven (Z.to_nat n) m then Some (mkAb n scal m) else None
    end
  else match find GeneralLevel m with
       | Some _ => Some (mkAb n scal m)
       | None => None
       end.

(* LevelAbilities::check, SchemeAbilities.h:90-101 *)
Definition checkLevel (l : level) (t : ctype) (v : vet) : verdict :=
  if negb (isEqual t) && negb (lv_ineq l) then RuntimeError
  else if existsb (vet_eqb v) (lv_types l) then Accept
  else RuntimeError.

(* SchemeAbilities::check, SchemeAbilities.h:103-134 *)
Definition check (a : abilities) (t : ctype) (p : Z) (v : vet) : verdict :=
  if (0 <? ab_n a) && (ab_n a <=? p) && negb (ab_scal a) then RuntimeError
  else match find p (ab_map a) with
       | Some l => checkLevel l t v
       | None => match find GeneralLevel (ab_map a) with
                 | Some l => checkLevel l t v
                 | None => OutOfRange
                 end
       end.

(* WeightedLeastSquares::abilities_, src/scheme/WeightedLeastSquares.cpp:21-23 *)
Definition wls := make 2 [(0, mkLevel true [L2]); (1, mkLevel false [L2])] true.
(* HierarchicalLeastSquares::abilities_, src/scheme/HierarchicalLeastSquares.cpp:21-23 *)
Definition hls := make NoLimit [(GeneralLevel, mkLevel true [L2])] false.
