(* Specification for C32: matrices with the structure described in DiagonalCalculator.h:61-84. *)
From Coq Require Import List Arith ZArith QArith Sorted.
Import ListNotations.
From Verif Require Import Base QSum DiagModel.
Local Open Scope nat_scope.

(* A is made of m rows of a diagonal matrix of size n: the rows whose index is in [nnz], where
   the diagonal is not zero, and those whose index is in [zeros], where it is; [rows] are these
   indices in increasing order. *)
Definition structured (m n : nat) (nnz zeros : nat -> Prop) (rows : list nat) (A : nat -> nat -> Q) : Prop :=
  StronglySorted lt rows /\ length rows = m /\ (forall i, In i rows <-> nnz i \/ zeros i) /\
  (forall i, nnz i -> ~ zeros i) /\
  forall i j, i < m -> j < n -> ~ (A i j == 0)%Q <-> nth i rows 0 = j /\ nnz j.

Definition mul (n : nat) (A B : nat -> nat -> Q) : nat -> nat -> Q := fun i j => qsumn (fun k => A i k * B k j)%Q n.
Definition mulv (n : nat) (A : nat -> nat -> Q) (v : nat -> Q) : nat -> Q := fun i => qsumn (fun k => A i k * v k)%Q n.
Definition eqm (m n : nat) (A B : nat -> nat -> Q) : Prop := forall i j, i < m -> j < n -> (A i j == B i j)%Q.
Definition eqv (n : nat) (v w : nat -> Q) : Prop := forall i, i < n -> (v i == w i)%Q.
Definition opp (A : nat -> nat -> Q) : nat -> nat -> Q := fun i j => (- A i j)%Q.
Definition tr (A : nat -> nat -> Q) : nat -> nat -> Q := fun i j => A j i.
Definition zero : nat -> nat -> Q := fun _ _ => 0%Q.
(* the c columns of B are a basis of the null space of A (m x n) *)
Definition nullBasis (m n c : nat) (A B : nat -> nat -> Q) : Prop :=
  eqm m c (mul n A B) zero /\
  forall x, eqv m (mulv n A x) (fun _ => 0%Q) ->
    exists z, eqv n x (mulv c B z) /\ forall z', eqv n x (mulv c B z') -> eqv c z z'.

(* Calculators as a user makes them, for a single constraint of size m and a single variable of
   size n, with the declared rank r: contiguous rows, or lists of rows. *)
Definition made (m n r : nat) (nnz zeros : nat -> Prop) (d : impl) : Prop :=
  (exists first size c, newContiguous first size = Ok c /\ newImpl c true m n r = Ok d /\
     (forall i, nnz i <-> (first <= Z.of_nat i < if size =? -1 then Z.of_nat n else first + size)%Z) /\ (forall i, ~ zeros i)) \/
  (exists lnnz lzeros c, newRows lnnz lzeros = Ok c /\ newImpl c true m n r = Ok d /\
     (forall i, nnz i <-> In (Z.of_nat i) lnnz) /\ (forall i, zeros i <-> In (Z.of_nat i) lzeros)).

(* the selected rows are all those before any zero row *)
Definition full (nnz zeros : nat -> Prop) : Prop := forall z, zeros z -> forall j, j < z -> nnz j \/ zeros j.
