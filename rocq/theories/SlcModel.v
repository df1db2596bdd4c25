(* Model of the objects with properties (include/tvm/internal/MatrixWithProperties.h) and of
   the slices of the jacobians (slice_matrix, include/tvm/internal/FirstOrderProvider.h:83-98).
   A matrix is given by its sizes and its entries; K is the type of the entries. The
   expression assigned is a matrix already computed: an expression which reads the matrix
   it is assigned to is not modelled. A failed assertion, also one of Eigen, is [UB]. *)
Require Import List Bool Arith.
Require Import Verif.Base Verif.MatPropModel.
Import ListNotations.

(* slice_matrix::slice: FirstOrderProvider.h:87-93 *)
Definition slice (p : props) : res props :=
  if isZero p then build (mkArgs ZERO NA (Some (isConstant p)) None)
  else build (mkArgs GENERAL NA (Some (isConstant p)) None).

Section Objects.
Variable K : Type.
Variables add sub : K -> K -> K.

Record mat := mkMat { nr : nat; nc : nat; en : nat -> nat -> K }.
(* ObjectWithProperties: MatrixWithProperties.h:51-144 *)
Record obj := mkObj { mx : mat; pr : props }.

(* middleCols of Eigen, with its assertion on the range *)
Definition middleCols (M : mat) (s d : nat) : res mat :=
  if s + d <=? nc M then Ok (mkMat (nr M) d (fun i j => en M i (s + j))) else UB.

(* slice_matrix::get on a constant matrix: FirstOrderProvider.h:96-97; the result is a copy of
   the properties, MatrixWithProperties.h:64-68 *)
Definition constSlice (o : obj) (s d : nat) : res obj :=
  do c <- middleCols (mx o) s d; do q <- slice (pr o); Ok (mkObj c q).

(* What an operation is called on: the matrix, or the object which slice_matrix::get returns
   for a matrix which is not constant (FirstOrderProvider.h:94-95). The latter refers to
   columns of the matrix and to its properties (MatrixWithProperties.h:143). *)
Inductive target := Whole | Cols (s d : nat).
Definition view (o : obj) (t : target) : res mat :=
  match t with Whole => Ok (mx o) | Cols s d => middleCols (mx o) s d end.
(* properties(): MatrixWithProperties.h:130-131 *)
Definition viewProps (o : obj) (t : target) : res props := do v <- view o t; Ok (pr o).
(* writing f in the columns referred to *)
Definition put (M : mat) (t : target) (f : nat -> nat -> K) : mat :=
  match t with
  | Whole => mkMat (nr M) (nc M) f
  | Cols s d => mkMat (nr M) (nc M) (fun i j => if (s <=? j) && (j <? s + d) then f i (j - s) else en M i j)
  end.
Definition sameSize (v e : mat) : bool := (nr v =? nr e) && (nc v =? nc e).

(* The operations: operator= (MatrixWithProperties.h:79-88), operator+= (90-97),
   operator-= (99-106), keepProperties(b) = e (140 and 146-160, with assignKeepProperties,
   120-128), properties(p) (132) *)
Inductive op := Assign (e : mat) | Plus (e : mat) | Minus (e : mat) | Keep (b : bool) (e : mat) | SetProps (p : props).
Definition assign (o : obj) (t : target) (v e : mat) : res obj :=
  if sameSize v e then Ok (mkObj (put (mx o) t (en e)) default_props) else UB.
Definition assignKeep (o : obj) (t : target) (v e : mat) : res obj :=
  if sameSize v e then Ok (mkObj (put (mx o) t (en e)) (pr o)) else UB.
Definition step (o : obj) (c : target * op) : res obj :=
  let t := fst c in
  do v <- view o t;
  match snd c with
  | Assign e => assign o t v e
  | Plus e => if sameSize v e then Ok (mkObj (put (mx o) t (fun i j => add (en v i j) (en e i j))) default_props) else UB
  | Minus e => if sameSize v e then Ok (mkObj (put (mx o) t (fun i j => sub (en v i j) (en e i j))) default_props) else UB
  | Keep b e => if b then assignKeep o t v e else assign o t v e
  | SetProps p => Ok (mkObj (mx o) p)
  end.
Fixpoint steps (o : obj) (l : list (target * op)) : res obj :=
  match l with nil => Ok o | c :: l' => do o' <- step o c; steps o' l' end.

(* BasicLinearFunction::add for a variable already there: BasicLinearFunction.h:144-149 *)
Definition addTo (o : obj) (t : target) (A : mat) : res obj :=
  do o1 <- step o (t, Plus A);
  do p <- build (mkArgs GENERAL NA (Some true) None);
  step o1 (t, SetProps p).
End Objects.
Arguments nr {K}. Arguments nc {K}. Arguments en {K}. Arguments mkMat {K}. Arguments mx {K}. Arguments pr {K}. Arguments mkObj {K}.
Arguments middleCols {K}. Arguments constSlice {K}. Arguments view {K}. Arguments viewProps {K}. Arguments put {K}. Arguments sameSize {K}.
Arguments Assign {K}. Arguments Plus {K}. Arguments Minus {K}. Arguments Keep {K}. Arguments SetProps {K}.
Arguments assign {K}. Arguments assignKeep {K}. Arguments step {K}. Arguments steps {K}. Arguments addTo {K}.
