(* Model of tvm::Space, src/Space.cpp and include/tvm/Space.h. [int] is [Z]; a
   violated assert is [UB]. *)
Require Import ZArith Bool.
Require Import Verif.Base.
Local Open Scope Z_scope.

(* Space.h:36-42 *)
Inductive stype := Euclidean | SO3 | SE3 | Unspecified.
Definition stype_eqb (a b : stype) : bool :=
  match a, b with
  | Euclidean, Euclidean | SO3, SO3 | SE3, SE3 | Unspecified, Unspecified => true
  | _, _ => false
  end.

(* Space.h:108-111 *)
Record space := mkSpace { mSize : Z; rSize : Z; tSize : Z; type_ : stype }.

(* Space.cpp:15-22 *)
Definition space3 (size r t : Z) : res space :=
  if (0 <=? size) && (size <=? r) && (size <=? t)
  then Ok (mkSpace size r t (if (size =? r) && (size =? t) then Euclidean else Unspecified))
  else UB.
(* Space.cpp:11 *)
Definition space1 (size : Z) : res space := space3 size size size.
(* Space.cpp:13 *)
Definition space2 (size r : Z) : res space := space3 size r size.

(* Space.cpp:24-47; the default of [size] is -1 (Space.h:68) *)
Definition spaceT (ty : stype) (size : Z) : res space :=
  match ty with
  | Euclidean => Ok (mkSpace size size size Euclidean)
  | SO3 => if size <? 0 then Ok (mkSpace 3 4 3 SO3) else UB
  | SE3 => if size <? 0 then Ok (mkSpace 6 7 6 SE3) else UB
  | Unspecified => Throw
  end.

(* Space.cpp:60 *)
Definition isEuclideanS (s : space) : bool := stype_eqb (type_ s) Euclidean.

(* Space.h:86-90 operator== *)
Definition space_eq (a b : space) : bool :=
  (mSize a =? mSize b) && (rSize a =? rSize b) && (tSize a =? tSize b) && stype_eqb (type_ a) (type_ b).

(* Space.h:94-95 operator<= *)
Definition space_le (a b : space) : bool :=
  (mSize a <=? mSize b) && (rSize a <=? rSize b) && (tSize a <=? tSize b).

(* Space.h:97-105 operator*. The constructor call on line 99 asserts the size
   inequalities. *)
Definition space_mul (a b : space) : res space :=
  do p <- space3 (mSize a + mSize b) (rSize a + rSize b) (tSize a + tSize b);
  Ok (mkSpace (mSize p) (rSize p) (tSize p)
        (if stype_eqb (type_ a) Euclidean && stype_eqb (type_ b) Euclidean then Euclidean else Unspecified)).
