(* Model of src/internal/MatrixProperties.cpp and include/tvm/internal/MatrixProperties.h.
   std::runtime_error is [Throw]. A double factor only enters by its sign, given as a
   [comparison] of the factor with 0. *)
Require Import ZArith List Bool Arith.
Require Import Verif.Base.
Import ListNotations.

(* MatrixProperties.h:19-40 *)
Inductive shape := GENERAL | LOWER | UPPER | DIAGONAL | MULTIPLE | IDENTITY | MINUSID | ZERO.
(* MatrixProperties.h:42-61 *)
Inductive posit := NA | PSD | PD | NSD | ND | INDEF | NZI.
(* the values of the enumerators *)
Definition shN (s : shape) : nat :=
  match s with GENERAL => 0 | LOWER => 1 | UPPER => 2 | DIAGONAL => 3 | MULTIPLE => 4 | IDENTITY => 5 | MINUSID => 6 | ZERO => 7 end.
Definition poN (p : posit) : nat :=
  match p with NA => 0 | PSD => 1 | PD => 2 | NSD => 3 | ND => 4 | INDEF => 5 | NZI => 6 end.
Definition sh_eq (a b : shape) : bool := Nat.eqb (shN a) (shN b).
Definition po_eq (a b : posit) : bool := Nat.eqb (poN a) (poN b).

(* MatrixProperties.cpp:42-60 *)
Local Open Scope Z_scope.
Definition table : list (list Z) :=
  [ [-1; -1; -1; -1; -1; -1; -1];
    [ 1; -1; -1;  0;  0;  1;  0];
    [ 1;  1; -1;  0;  0;  1;  1];
    [ 1;  0;  0;  1; -1;  1;  1];
    [ 1;  0;  0;  1; -1;  1;  1];
    [ 1; -1; -1; -1; -1; -1; -1];
    [ 1;  0; -1;  0; -1;  1;  1] ].
Definition greaterThan (a b : posit) : res bool :=
  let v := nth (poN b) (nth (poN a) table []) 0 in
  if v =? 0 then Throw else Ok (0 <? v).
Local Close Scope Z_scope.
(* MatrixProperties.cpp:62-68 *)
Definition pmax (a b : posit) : res posit := do g <- greaterThan a b; if (g : bool) then Ok a else Ok b.
(* MatrixProperties.cpp:70-91 *)
Definition promoteP (p : posit) (invertible : bool) : posit :=
  if invertible then match p with PSD => PD | NSD => ND | INDEF => NZI | _ => p end else p.
(* MatrixProperties.cpp:93-103 *)
Definition deduceConstance (s : shape) : bool := sh_eq s IDENTITY || sh_eq s MINUSID || sh_eq s ZERO.
Definition deduceSymmetry (s : shape) (p : posit) : bool := Nat.leb (shN DIAGONAL) (shN s) || negb (po_eq p NA).
Definition deduceInvertibility (s : shape) (p : posit) : bool :=
  sh_eq s IDENTITY || sh_eq s MINUSID || po_eq p PD || po_eq p ND || po_eq p NZI.
(* MatrixProperties.cpp:105-114 *)
Definition deduceShape (s : shape) (p : posit) : shape :=
  if (sh_eq s LOWER || sh_eq s UPPER) && negb (po_eq p NA) then DIAGONAL else s.
(* MatrixProperties.cpp:116-143 *)
Definition defaultPos (s : shape) : posit :=
  match s with DIAGONAL => INDEF | MULTIPLE => INDEF | IDENTITY => PD | MINUSID => ND | ZERO => INDEF | _ => NA end.
Definition deducePositiveness (s : shape) (p : posit) (invertible : bool) : res posit :=
  pmax (promoteP (defaultPos s) invertible) (promoteP p invertible).

(* MatrixProperties.h:178-182 *)
Record props := mkP { constant_ : bool; invertible_ : bool; shape_ : shape; symmetric_ : bool; positiveness_ : posit }.
(* The arguments of the constructor: a shape or a positiveness which is not given is
   GENERAL or NA (MatrixProperties.h:147,159-162); constness and invertibility are [None]
   when not given (the pair [checks] says which were given). *)
Record args := mkArgs { a_shape : shape; a_pos : posit; a_const : option bool; a_inv : option bool }.
Definition given (o : option bool) : bool := match o with Some _ => true | None => false end.
Definition value (o : option bool) : bool := match o with Some b => b | None => false end.

(* build: MatrixProperties.cpp:158-187 *)
Definition build (a : args) : res props :=
  let s := a_shape a in let p := a_pos a in
  if (sh_eq s ZERO && po_eq p PD) || (sh_eq s ZERO && po_eq p ND) || (sh_eq s ZERO && po_eq p NZI)
     || (sh_eq s IDENTITY && po_eq p NSD) || (sh_eq s IDENTITY && po_eq p ND)
     || (sh_eq s MINUSID && po_eq p PSD) || (sh_eq s MINUSID && po_eq p PD) then Throw
  else if given (a_const a) && negb (value (a_const a)) && deduceConstance s then Throw
  else if given (a_inv a) && (negb (value (a_inv a)) && deduceInvertibility s p) then Throw
  else if given (a_inv a) && (value (a_inv a) && sh_eq s ZERO) then Throw
  else
    do q <- deducePositiveness s p (value (a_inv a));
    Ok (mkP (value (a_const a) || deduceConstance s) (value (a_inv a) || deduceInvertibility s p)
            (deduceShape s p) (deduceSymmetry s p) q).
(* default constructor: MatrixProperties.cpp:153-156 *)
Definition default_props : props := mkP false false GENERAL false NA.

(* accessors: MatrixProperties.h:217-252 *)
Definition isConstant (p : props) := constant_ p.
Definition isInvertible (p : props) := invertible_ p.
Definition isTriangular (p : props) := Nat.leb (shN LOWER) (shN (shape_ p)).
Definition isDiagonal (p : props) := Nat.leb (shN DIAGONAL) (shN (shape_ p)).
Definition isLowerTriangular (p : props) := sh_eq (shape_ p) LOWER || isDiagonal p.
Definition isUpperTriangular (p : props) := Nat.leb (shN UPPER) (shN (shape_ p)).
Definition isMultipleOfIdentity (p : props) := Nat.leb (shN MULTIPLE) (shN (shape_ p)).
Definition isIdentity (p : props) := sh_eq (shape_ p) IDENTITY.
Definition isMinusIdentity (p : props) := sh_eq (shape_ p) MINUSID.
Definition isZero (p : props) := sh_eq (shape_ p) ZERO.
Definition isSymmetric (p : props) := symmetric_ p.
Definition isPositiveDefinite (p : props) := po_eq (positiveness_ p) PD.
Definition isPositiveSemiDefinite (p : props) := po_eq (positiveness_ p) PSD || isPositiveDefinite p || isZero p.
Definition isNegativeDefinite (p : props) := po_eq (positiveness_ p) ND.
Definition isNegativeSemidefinite (p : props) := po_eq (positiveness_ p) NSD || isNegativeDefinite p || isZero p.
Definition isIndefinite (p : props) := negb (po_eq (positiveness_ p) NA).
Definition isNonZeroIndefinite (p : props) := po_eq (positiveness_ p) NZI || isPositiveDefinite p || isNegativeDefinite p.

(* MatrixProperties.cpp:200-221 *)
Definition po_neg (p : posit) : posit :=
  match p with NA => NA | PSD => NSD | PD => ND | NSD => PSD | ND => PD | INDEF => INDEF | NZI => NZI end.
(* MatrixProperties.cpp:223-233 *)
Definition po_scale (d : comparison) (p : posit) : posit :=
  match d with Lt => po_neg p | Gt => p | Eq => if po_eq p NA then p else INDEF end.
(* MatrixProperties.cpp:235-249 *)
Definition po_add (p1 p2 : posit) : res posit :=
  if po_eq p1 NA || po_eq p2 NA then Ok NA
  else if (po_eq p1 PSD || po_eq p1 PD) && (po_eq p2 PSD || po_eq p2 PD) then pmax p1 p2
  else if (po_eq p1 NSD || po_eq p1 ND) && (po_eq p2 NSD || po_eq p2 ND) then pmax p1 p2
  else Ok INDEF.
Definition po_sub (p1 p2 : posit) : res posit := po_add p1 (po_neg p2).
(* MatrixProperties.cpp:251-255 *)
Definition po_mul (p1 p2 : posit) : posit := NA.
(* MatrixProperties.cpp:257-275 *)
Definition sh_neg (s : shape) : shape := match s with IDENTITY => MINUSID | MINUSID => IDENTITY | _ => s end.
Definition sh_scale (d : comparison) (s : shape) : shape := match d with Lt => sh_neg s | Gt => s | Eq => ZERO end.
(* std::minmax *)
Definition minmax (a b : shape) : shape * shape := if Nat.ltb (shN b) (shN a) then (b, a) else (a, b).
(* MatrixProperties.cpp:277-319 *)
Definition sh_add (s1 s2 : shape) : shape :=
  let (f, s) := minmax s1 s2 in
  match f with
  | GENERAL => GENERAL
  | LOWER => if sh_eq s UPPER then GENERAL else LOWER
  | UPPER => UPPER
  | DIAGONAL => DIAGONAL
  | MULTIPLE => MULTIPLE
  | IDENTITY => if sh_eq s IDENTITY then MULTIPLE else if sh_eq s MINUSID then ZERO else IDENTITY
  | MINUSID => if sh_eq s MINUSID then MULTIPLE else MINUSID
  | ZERO => ZERO
  end.
Definition sh_sub (s1 s2 : shape) : shape := sh_add s1 (sh_neg s2).
(* MatrixProperties.cpp:321-356 *)
Definition sh_mul (s1 s2 : shape) : res shape :=
  let (f, s) := minmax s1 s2 in
  if sh_eq s ZERO then Ok ZERO
  else match f with
  | GENERAL => Ok GENERAL
  | LOWER => Ok (if sh_eq s UPPER then GENERAL else LOWER)
  | UPPER => Ok UPPER
  | DIAGONAL => Ok DIAGONAL
  | MULTIPLE => Ok MULTIPLE
  | IDENTITY => Ok (if sh_eq s IDENTITY then IDENTITY else MINUSID)
  | MINUSID => Ok IDENTITY
  | ZERO => Throw
  end.

(* the operators: MatrixProperties.cpp:189-198 (constness, invertibility) and 358-380 *)
Definition mp_neg (p : props) : res props :=
  build (mkArgs (sh_neg (shape_ p)) (po_neg (positiveness_ p)) (Some (constant_ p)) (Some (invertible_ p))).
Definition mp_scale (d : comparison) (p : props) : res props :=
  build (mkArgs (sh_scale d (shape_ p)) (po_scale d (positiveness_ p)) (Some (constant_ p))
                (Some (match d with Eq => false | _ => invertible_ p end))).
Definition mp_add (p1 p2 : props) : res props :=
  do q <- po_add (positiveness_ p1) (positiveness_ p2);
  build (mkArgs (sh_add (shape_ p1) (shape_ p2)) q (Some (constant_ p1 && constant_ p2)) (Some false)).
Definition mp_sub (p1 p2 : props) : res props :=
  do q <- po_sub (positiveness_ p1) (positiveness_ p2);
  build (mkArgs (sh_sub (shape_ p1) (shape_ p2)) q (Some (constant_ p1 && constant_ p2)) (Some false)).
Definition mp_mul (p1 p2 : props) : res props :=
  do s <- sh_mul (shape_ p1) (shape_ p2);
  build (mkArgs s (po_mul (positiveness_ p1) (positiveness_ p2)) (Some (constant_ p1 && constant_ p2))
                (Some (invertible_ p1 && invertible_ p2))).
