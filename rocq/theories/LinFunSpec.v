(* What affine expressions mean, independently of how the functions are built from them. *)
Require Import QArith ZArith List Bool.
Require Import Verif.QSum Verif.SpaceModel Verif.RangeModel Verif.VarCountingModel Verif.VarCountingSpec Verif.LinFunModel.
Import ListNotations.
Local Open Scope Z_scope.

(* The i-th coordinate of an expression when the i-th coordinate of the variable x is [val x i] and
   the constants are given by [cst] *)
Fixpoint meaning (val : cvar -> nat -> Q) (cst : vec -> nat -> Q) (e : expr) (i : nat) : Q :=
  (match e with
  | EVar x => val x i
  | ECst b => cst b i
  | ENeg e => - meaning val cst e i
  | EScal s e => s * meaning val cst e i
  | EMul M e => qsumn (fun j => me M i j * meaning val cst e j) (mc M)
  | EAdd e f => meaning val cst e i + meaning val cst f i
  | ESub e f => meaning val cst e i - meaning val cst f i
  end)%Q.
(* coordinate i of the variable x: the super-variable has the coordinates [env]; x begins at the one
   after its shift, in the representation space for a variable, in the tangent space for a derivative *)
Definition coord (base : nat -> bool) (env : nat -> Z -> Q) (x : cvar) (i : nat) : Q :=
  env (c_sup x) ((if base (c_sup x) then rSize (c_shift x) else tSize (c_shift x)) + Z.of_nat i).
(* coordinate i of the time derivative of x *)
Definition dcoord (denv : nat -> Z -> Q) (x : cvar) (i : nat) : Q := denv (c_sup x) (tSize (c_shift x) + Z.of_nat i).
Definition constant (b : vec) (i : nat) : Q := ve b i.
Definition nothing (b : vec) (i : nat) : Q := 0.

(* The variables of an expression *)
Fixpoint vars (e : expr) : list cvar :=
  match e with
  | EVar x => [x]
  | ECst b => []
  | ENeg e | EScal _ e | EMul _ e => vars e
  | EAdd e f | ESub e f => vars e ++ vars f
  end.
(* [fits base e n]: the sizes in e agree and e has n rows.  A scalar multiplying a variable is not
   zero, and only a variable or a constant is subtracted from a constant (the operator does not exist). *)
Inductive fits (base : nat -> bool) : expr -> nat -> Prop :=
  | FVar x : fits base (EVar x) (Z.to_nat (if base (c_sup x) then rSize (c_space x) else tSize (c_space x)))
  | FCst b : fits base (ECst b) (vn b)
  | FNeg e n : fits base e n -> fits base (ENeg e) n
  | FScal s e n : fits base e n -> ((exists x, e = EVar x) -> ~ (s == 0)%Q) -> fits base (EScal s e) n
  | FMul M e : fits base e (mc M) -> fits base (EMul M e) (mr M)
  | FAdd e f n : fits base e n -> fits base f n -> fits base (EAdd e f) n
  | FSub e f n : fits base e n -> fits base f n -> (vars e = [] -> vars f = [] \/ exists x, f = EVar x) -> fits base (ESub e f) n.

(* A usable variable: a non-empty part of its super-variable, of a Euclidean space unless it is a derivative *)
Definition usable (L : layout) (base : nat -> bool) (x : cvar) : Prop :=
  (exists q, 0 < dim q /\ made_of L x q) /\
  (base (c_sup x) = true -> type_ (c_space x) = Euclidean /\ mSize (c_space x) = rSize (c_space x) /\ mSize (c_space x) = tSize (c_space x)).

(* What a shape says of a matrix *)
Definition shape_true (M : mat) (s : mshape) : Prop :=
  let diag c := mr M = mc M /\ forall i j, (i < mr M)%nat -> (j < mc M)%nat -> (me M i j == if Nat.eqb i j then c else 0)%Q in
  match s with
  | General => True
  | Ident => diag 1%Q
  | MinusIdent => diag (-1)%Q
  | MultIdent => exists c, diag c
  end.

(* x covers the coordinate c of the super-variable k *)
Definition covers (base : nat -> bool) (x : cvar) (k : nat) (c : Z) : Prop :=
  c_sup x = k /\
  let first := if base k then rSize (c_shift x) else tSize (c_shift x) in
  first <= c < first + (if base k then rSize (c_space x) else tSize (c_space x)).
Definition inside (base : nat -> bool) (y x : cvar) : Prop := forall k c, covers base y k c -> covers base x k c.
Definition apart (base : nat -> bool) (x y : cvar) : Prop := forall k c, ~ (covers base x k c /\ covers base y k c).
(* Each variable of the list is inside one of those before it, or is apart from all of them *)
Definition compatible (base : nat -> bool) (xs : list cvar) : Prop :=
  forall a y b, xs = a ++ y :: b -> (exists x, In x a /\ inside base y x) \/ (forall x, In x a -> apart base x y).

(* A_1 x_1 + ... + A_n x_n *)
Definition sumAx (val : cvar -> nat -> Q) (As : list mat) (xs : list cvar) (i : nat) : Q :=
  qsum (fun p => qsumn (fun j => me (fst p) i j * val (snd p) j)%Q (mc (fst p))) (combine As xs).
(* A is a matrix of n rows for x *)
Definition matrix_for (base : nat -> bool) (n : nat) (A : mat) (x : cvar) : Prop :=
  mr A = n /\ Z.of_nat (mc A) = if base (c_sup x) then rSize (c_space x) else tSize (c_space x).
(* x lives in a space that is not Euclidean and is not a derivative *)
Definition curved (base : nat -> bool) (x : cvar) : Prop := base (c_sup x) = true /\ type_ (c_space x) <> Euclidean.
