(* Model of hint::internal::DiagonalCalculator (src/hint/DiagonalCalculator.cpp) and of the part of
   SubstitutionCalculatorImpl it relies on (src/hint/SubstitutionCalculatorImpl.cpp).
   A matrix is a function of the row and the column, its sizes are given apart; doubles are Q.
   Accesses out of the matrices and violated assertions are UB. *)
From Coq Require Import List Bool Arith ZArith QArith.
Import ListNotations.
From Verif Require Import Base.
Local Open Scope Z_scope.

Definition mat := nat -> nat -> Q.

(* std::sort, on a few indices *)
Fixpoint insert (x : Z) (l : list Z) : list Z :=
  match l with [] => [x] | y :: l' => if x <=? y then x :: l else y :: insert x l' end.
Fixpoint sort (l : list Z) : list Z := match l with [] => [] | x :: l' => insert x (sort l') end.

(* DiagonalCalculator, DiagonalCalculator.h:93-96 *)
Record calc := mkCalc { k_first : Z; k_size : Z; k_nnz : list Z; k_zeros : list Z }.

(* DiagonalCalculator(first, size), DiagonalCalculator.cpp:36-46 *)
Definition newContiguous (first size : Z) : res calc :=
  if first <? 0 then Throw else if size <? -1 then Throw else Ok (mkCalc first size [] []).

(* one of the loops DiagonalCalculator.cpp:62-76 and 78-92; [appear] is the list of the indices
   already seen *)
Fixpoint checkIndices (l : list Z) (appear : list Z) : res (list Z) :=
  match l with
  | [] => Ok appear
  | i :: l' => if i <? 0 then Throw else if existsb (Z.eqb i) appear then Throw else checkIndices l' (i :: appear)
  end.
(* DiagonalCalculator(nnzRows, zeroRows), DiagonalCalculator.cpp:48-93.  The vector [appear] is
   larger than any index; for a negative maximum its creation or the first loop throws. *)
Definition newRows (nnz zeros : list Z) : res calc :=
  match nnz with
  | [] => Throw
  | _ =>
      let nnz := sort nnz in
      let zeros := sort zeros in
      do a <- checkIndices nnz [];
      do _ <- checkIndices zeros a;
      Ok (mkCalc (-1) (-1) nnz zeros)
  end.

(* DiagonalCalculator::Impl, DiagonalCalculator.h:51-58, with m_, n_, r_ and N_ of the base *)
Record impl := mkI {
  i_m : nat; i_n : nat; i_r : nat;
  i_nnz : list nat; i_cnnz : list nat; i_zeros : list nat; i_innz : list nat; i_N : mat }.

Local Open Scope nat_scope.
Definition setRow (M : mat) (i : nat) (f : nat -> Q) : mat := fun a b => if a =? i then f b else M a b.
Definition setCol (M : mat) (j : nat) (f : nat -> Q) : mat := fun a b => if b =? j then f a else M a b.
Definition setElt (M : mat) (i j : nat) (q : Q) : mat := fun a b => if (a =? i) && (b =? j) then q else M a b.
Definition mem (x : nat) (l : list nat) : bool := existsb (Nat.eqb x) l.

(* build, DiagonalCalculator.cpp:250-283 *)
Fixpoint fillN (cnnz : list nat) (i : nat) (n c : nat) (N : mat) : res mat :=
  match cnnz with
  | [] => Ok N
  | x :: l => if (x <? n) && (i <? c) then fillN l (S i) n c (setElt N x i 1%Q) else UB
  end.
Fixpoint innzLoop (nnz zeros : list nat) (l : list nat) (k : nat) : list nat :=
  match l with
  | [] => []
  | i :: l' => if mem i nnz then k :: innzLoop nnz zeros l' (S k)
               else if mem i zeros then innzLoop nnz zeros l' (S k)
               else innzLoop nnz zeros l' k
  end.
Definition build (m n r : nat) (nnz cnnz zeros : list nat) : res impl :=
  do N <- fillN cnnz 0 n (n - r) (fun _ _ => 0%Q);
  if forallb (fun i => i <? n) nnz && forallb (fun i => i <? n) zeros
  then Ok (mkI m n r nnz cnnz zeros (innzLoop nnz zeros (seq 0 n) 0) N)
  else UB.

(* Impl(cstr, x, rank, first, size), DiagonalCalculator.cpp:110-146; the two assertions of the
   base's constructor, SubstitutionCalculatorImpl.cpp:145-146 *)
Definition implContiguous (simple : bool) (m n r : nat) (first size : Z) : res impl :=
  if negb ((m <=? n) && (r <=? m)) then UB
  else if negb simple then Throw
  else
    let size_ := if (size =? -1)%Z then (Z.of_nat n - first)%Z else size in
    if negb (size_ =? Z.of_nat r)%Z then Throw
    else
      let f := Z.to_nat first in
      let s := Z.to_nat size_ in
      build m n r (seq f s) (seq 0 f ++ seq (f + s) (n - (f + s))) [].

(* the complement of nnz, DiagonalCalculator.cpp:170-184 *)
Fixpoint gaps (from : nat) (nnz : list nat) (n : nat) : list nat :=
  match nnz with
  | [] => seq from (n - from)
  | x :: l => seq from (x - from) ++ gaps (S x) l n
  end.
(* Impl(cstr, x, rank, nnzRows, zeroRows), DiagonalCalculator.cpp:148-187 *)
Definition implRows (simple : bool) (m n r : nat) (nnz zeros : list Z) : res impl :=
  if negb ((m <=? n) && (r <=? m)) then UB
  else if negb simple then Throw
  else if (Z.of_nat n <=? Z.max (last nnz 0) (last zeros (last nnz 0)))%Z then Throw
  else if negb (length nnz =? r) then Throw
  else
    let nnz := map Z.to_nat nnz in
    build m n r nnz (gaps 0 nnz n) (map Z.to_nat zeros).

(* impl_, DiagonalCalculator.cpp:95-108 *)
Definition newImpl (c : calc) (simple : bool) (m n r : nat) : res impl :=
  if (0 <=? k_first c)%Z then implContiguous simple m n r (k_first c) (k_size c)
  else implRows simple m n r (k_nnz c) (k_zeros c).

(* update_, DiagonalCalculator.cpp:189-196; the result is inverse_.  A division by zero gives an
   infinity: it is UB here. *)
Fixpoint invLoop (A : mat) (m n : nat) (innz nnz : list nat) : res (list Q) :=
  match innz, nnz with
  | _, [] => Ok []
  | [], _ => UB
  | i :: innz', j :: nnz' =>
      if (i <? m) && (j <? n) && negb (Qeq_bool (A i j) 0) then
        do l <- invLoop A m n innz' nnz'; Ok ((1 / A i j)%Q :: l)
      else UB
  end.
Definition update_ (d : impl) (A : mat) : res (list Q) := invLoop A (i_m d) (i_n d) (i_innz d) (i_nnz d).

(* SubstitutionCalculatorImpl::update, SubstitutionCalculatorImpl.cpp:24-37: (inverse_, init_) *)
Definition update (constant : bool) (d : impl) (A : mat) (s : list Q * bool) : res (list Q * bool) :=
  if negb constant || snd s then do l <- update_ d A; Ok (l, false) else Ok s.

(* successive calls to update, with the successive jacobians *)
Fixpoint updates (constant : bool) (d : impl) (l : list mat) (s : list Q * bool) : res (list Q * bool) :=
  match l with [] => Ok s | A :: l' => do s' <- update constant d A s; updates constant d l' s' end.

(* premultiplyByASharpAndSTranspose_, DiagonalCalculator.cpp:198-230, called with matrices of the
   sizes asserted in SubstitutionCalculatorImpl.cpp:44-49: in has m rows, outA n, outS m - r *)
Fixpoint mulA (minus : bool) (m n : nat) (inv : list Q) (innz nnz : list nat) (inM outA : mat) : res mat :=
  match nnz, innz, inv with
  | [], _, _ => Ok outA
  | j :: nnz', i :: innz', q :: inv' =>
      if (j <? n) && (i <? m) then
        mulA minus m n inv' innz' nnz' inM
          (setRow outA j (fun p => if minus then (- q * inM i p)%Q else (q * inM i p)%Q))
      else UB
  | _, _, _ => UB
  end.
Fixpoint zeroRows (n : nat) (l : list nat) (outA : mat) : res mat :=
  match l with
  | [] => Ok outA
  | i :: l' => if i <? n then zeroRows n l' (setRow outA i (fun _ => 0%Q)) else UB
  end.
Fixpoint mulS (m ms : nat) (zeros : list nat) (i : nat) (inM outS : mat) : res mat :=
  match zeros with
  | [] => Ok outS
  | z :: l => if (i <? ms) && (z <? m) then mulS m ms l (S i) inM (setRow outS i (fun p => inM z p)) else UB
  end.
Definition premultiply (d : impl) (inv : list Q) (minus : bool) (outA outS inM : mat) : res (mat * mat) :=
  do a <- mulA minus (i_m d) (i_n d) inv (i_innz d) (i_nnz d) inM outA;
  do a' <- zeroRows (i_n d) (i_cnnz d) a;
  do s <- mulS (i_m d) (i_m d - i_r d) (i_zeros d) 0 inM outS;
  Ok (a', s).

(* postMultiplyByN_, DiagonalCalculator.cpp:232-248: in has n columns and out n - r
   (SubstitutionCalculatorImpl.cpp:62-64) *)
Fixpoint mulN (add : bool) (n c : nat) (cnnz : list nat) (i : nat) (out inM : mat) : res mat :=
  match cnnz with
  | [] => Ok out
  | x :: l => if (i <? c) && (x <? n) then
                mulN add n c l (S i) (setCol out i (fun a => if add then (out a i + inM a x)%Q else inM a x)) inM
              else UB
  end.
Definition postMultiplyByN (d : impl) (add : bool) (out inM : mat) : res mat :=
  mulN add (i_n d) (i_n d - i_r d) (i_cnnz d) 0 out inM.
