(* Model of hint::internal::GenericCalculator (src/hint/GenericCalculator.cpp) and of the part of SubstitutionCalculatorImpl it
   relies on (src/hint/SubstitutionCalculatorImpl.cpp). A matrix is a function of the row and the column, its sizes are given
   apart; doubles are Q. The matrix A of the substituted variables is an argument (fillA is SubstModel.fillA). *)
From Coq Require Import List Bool Arith QArith.
Import ListNotations.
From Verif Require Import Base QSum.
Local Open Scope nat_scope.

Definition mat := nat -> nat -> Q.
Definition vec := nat -> Q.

(* Eigen::ColPivHouseholderQR after compute(A), A being m x n:
   rank(); the product by matrixQ().setLength(nonzeroPivots()).transpose(); matrixR(), in which what is under the diagonal is
   not part of R; the column of A which is the j-th one of A P, colsPermutation().indices(). *)
Record qr := mkQR { f_rank : nat; f_QT : mat; f_R : mat; f_P : nat -> nat }.

(* triangularView<Upper>().solve for the r x r corner of R: backward substitution, from row k - 1 down to row 0; x is known from
   row k on *)
Fixpoint backsub (R : mat) (r : nat) (b : vec) (k : nat) (x : vec) : vec :=
  match k with
  | O => x
  | S k' => backsub R r b k'
      (fun i => if i =? k' then ((b k' - qsumn (fun t => R k' (S k' + t)%nat * x (S k' + t)%nat) (r - S k')) / R k' k')%Q else x i)
  end.
Definition solve (R : mat) (r : nat) (B : mat) : mat := fun i j => backsub R r (fun a => B a j) r (fun _ => 0%Q) i.
(* A null pivot gives infinities: it is UB here. *)
Definition regular (R : mat) (r : nat) : bool := forallb (fun i => negb (Qeq_bool (R i i) 0)) (seq 0 r).

Definition setRow (M : mat) (i : nat) (f : nat -> Q) : mat := fun a b => if a =? i then f b else M a b.
Definition setElt (M : mat) (i j : nat) (q : Q) : mat := fun a b => if (a =? i) && (b =? j) then q else M a b.
Definition mmul (n : nat) (A B : mat) : mat := fun i j => qsumn (fun k => A i k * B k j)%Q n.
(* the indices of the rows written are in the matrix *)
Definition rowsIn (P : nat -> nat) (n : nat) : bool := forallb (fun i => P i <? n) (seq 0 n).

(* GenericCalculator::Impl::update_, GenericCalculator.cpp:31-84, f being the decomposition of lines 33-41; the new N_ *)
Definition update_ (n r : nat) (f : qr) (N : mat) : res mat :=
  if negb (f_rank f =? r) then Throw
  else if negb (regular (f_R f) r && rowsIn (f_P f) n) then UB
  else
    let X := solve (f_R f) r (fun i j => f_R f i (r + j)) in
    let N1 := fold_left (fun M i => setRow M (f_P f i) (fun j => - X i j)%Q) (seq 0 r) N in
    Ok (fold_left (fun M i => setElt (setRow M (f_P f i) (fun _ => 0%Q)) (f_P f i) (i - r) 1%Q) (seq r (n - r)) N1).

(* GenericCalculator::Impl::premultiplyByASharpAndSTranspose_, GenericCalculator.cpp:86-128, called with matrices of the sizes
   asserted in SubstitutionCalculatorImpl.cpp:44-50; tmp_ is a temporary *)
Definition premultiply (m n r : nat) (f : qr) (minus : bool) (outA inM : mat) : res (mat * mat) :=
  if negb (regular (f_R f) r && rowsIn (f_P f) n) then UB
  else
    let T := mmul m (f_QT f) inM in
    let T1 := solve (f_R f) r T in
    let A1 := fold_left (fun M i => setRow M (f_P f i) (fun j => if minus then (- T1 i j)%Q else T1 i j)) (seq 0 r) outA in
    let A2 := fold_left (fun M i => setRow M (f_P f i) (fun _ => 0%Q)) (seq r (n - r)) A1 in
    Ok (A2, fun i j => T (r + i) j).
(* SubstitutionCalculatorImpl::postMultiplyByN_, SubstitutionCalculatorImpl.cpp:93-103 and, for the rows of a range,
   105-115; the choice between the two is at lines 80-87 *)
Definition postMultiplyByN (n : nat) (N : mat) (add : bool) (out inM : mat) : mat :=
  fun i j => if add then (out i j + mmul n inM N i j)%Q else mmul n inM N i j.
Definition postMultiplyByNr (n : nat) (N : mat) (start dim : nat) (add : bool) (out inM : mat) : mat :=
  if (start =? 0) && (dim =? n) then postMultiplyByN n N add out inM
  else postMultiplyByN dim (fun i j => N (start + i) j) add out inM.

(* The calculator: qr_, N_ and init_, SubstitutionCalculatorImpl.h:116-121 *)
Record calculator := mkGC { g_qr : qr; g_N : mat; g_init : bool }.
(* How an update ends: an exception leaves the calculator as it is at that point. *)
Inductive updated := Done (g : calculator) | Threw (g : calculator) | Undefined.
(* SubstitutionCalculatorImpl::update, SubstitutionCalculatorImpl.cpp:24-37, f being the decomposition of the current A *)
Definition update (constant : bool) (n r : nat) (f : qr) (g : calculator) : updated :=
  if negb constant || g_init g then
    match update_ n r f (g_N g) with
    | Ok N => Done (mkGC f N false)
    | Throw => Threw (mkGC f (g_N g) (g_init g))
    | UB => Undefined
    end
  else Done g.
(* Successive updates with the decompositions of the successive matrices A; the user goes on after an exception. The booleans
   tell the updates that returned. *)
Fixpoint updates (constant : bool) (n r : nat) (fs : list qr) (g : calculator) : option (list bool * calculator) :=
  match fs with
  | [] => Some ([], g)
  | f :: fs' =>
      match update constant n r f g with
      | Done g' => option_map (fun p => (true :: fst p, snd p)) (updates constant n r fs' g')
      | Threw g' => option_map (fun p => (false :: fst p, snd p)) (updates constant n r fs' g')
      | Undefined => None
      end
  end.
