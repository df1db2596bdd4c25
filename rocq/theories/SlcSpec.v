(* What is expected of the objects with properties and of the slices of jacobians. *)
Require Import List Bool Arith.
Require Import Verif.Base Verif.MatPropModel Verif.SlcModel.

(* the columns an operation is called on: column j of the matrix is column k of the target *)
Definition refersTo (t : target) (n j k : nat) : Prop :=
  match t with Whole => j = k /\ k < n | Cols s d => j = s + k /\ k < d end.
(* N is M with the columns of t replaced: entry (i, k) of them by f i k *)
Definition replaced {K} (M : mat K) (t : target) (f : nat -> nat -> K) (N : mat K) : Prop :=
  nr N = nr M /\ nc N = nc M /\
  (forall i j k, refersTo t (nc M) j k -> en N i j = f i k) /\
  (forall i j, j < nc M -> (forall k, ~ refersTo t (nc M) j k) -> en N i j = en M i j).
(* the target is made of d columns of M *)
Definition fits {K} (M : mat K) (t : target) (d : nat) : Prop :=
  match t with Whole => d = nc M | Cols s d' => d = d' /\ s + d' <= nc M end.
(* the entries of the target *)
Definition entry {K} (M : mat K) (t : target) (i k : nat) : K :=
  match t with Whole => en M i k | Cols s d => en M i (s + k) end.

(* what is written by an operation: None if nothing is *)
Definition writes {K} (add sub : K -> K -> K) (M : mat K) (t : target) (c : op K) : option (mat K * (nat -> nat -> K)) :=
  match c with
  | Assign e | Keep _ e => Some (e, en e)
  | Plus e => Some (e, fun i k => add (entry M t i k) (en e i k))
  | Minus e => Some (e, fun i k => sub (entry M t i k) (en e i k))
  | SetProps _ => None
  end.
(* the properties which an operation leaves *)
Definition leaves {K} (o : obj K) (c : op K) : props :=
  match c with Keep true _ => pr o | SetProps p => p | _ => default_props end.

From mathcomp Require Import all_ssreflect all_algebra.
Require Import Verif.MatPropSpec.
Set Implicit Arguments.
Unset Strict Implicit.
Unset Printing Implicit Defensive.
Import GRing.Theory Num.Theory.
Local Open Scope ring_scope.

Section Sound.
Variable R : realFieldType.
Definition matOf (M : mat R) : 'M[R]_(nr M, nc M) := \matrix_(i, j) en M i j.
(* all that is said of the matrix is true of it *)
Definition sound (o : obj R) : Prop := says (matOf (mx o)) (pr o).
(* The caller is honest: the properties declared are those of the whole matrix, and
   properties are kept only if they are those of the new matrix. *)
Fixpoint honest (o : obj R) (l : list (target * op R)) : Prop :=
  if l is (t, c) :: l' then
    (match c with
     | SetProps p => says (matOf (mx o)) p
     | Keep true e => forall N, replaced (mx o) t (en e) N -> says (matOf N) (pr o)
     | _ => True
     end) /\ (forall o', step +%R (fun x y => x - y) o (t, c) = Ok o' -> honest o' l')
  else True.
End Sound.
