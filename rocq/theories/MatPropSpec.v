(* What the properties of a matrix mean, for an m x n matrix over any ordered field. *)
From mathcomp Require Import all_ssreflect all_algebra.
Require Import Verif.Base Verif.MatPropModel.
Set Implicit Arguments.
Unset Strict Implicit.
Unset Printing Implicit Defensive.
Import GRing.Theory Num.Theory.
Local Open Scope ring_scope.

Section Meaning.
Variable R : realFieldType.
Section One.
Variables (m n : nat) (M : 'M[R]_(m, n)).
Definition lower := forall i j, (nat_of_ord i < nat_of_ord j)%N -> M i j = 0.
Definition upper := forall i j, (nat_of_ord j < nat_of_ord i)%N -> M i j = 0.
Definition diagonal := forall i j, nat_of_ord i <> nat_of_ord j -> M i j = 0.
(* a*I; a zero matrix counts as one whatever its size *)
Definition multiple (a : R) := (m = n \/ a = 0) /\
  forall i j, M i j = if nat_of_ord i == nat_of_ord j then a else 0.
Definition symmetric := forall i j i' j', nat_of_ord i = nat_of_ord j' -> nat_of_ord j = nat_of_ord i' -> M i j = M i' j'.
(* x^T M x *)
Definition quad (x : nat -> R) : R := \sum_(i < m) \sum_(j < n) x i * M i j * x j.
Definition nonzero (x : nat -> R) := exists i : 'I_m, x i != 0.
Definition inverse := exists N : 'M[R]_(n, m), M *m N = 1%:M /\ N *m M = 1%:M.
Definition psd := symmetric /\ forall x, 0 <= quad x.
Definition nsd := symmetric /\ forall x, quad x <= 0.
Definition pd := m = n /\ symmetric /\ forall x, nonzero x -> 0 < quad x.
Definition nd := m = n /\ symmetric /\ forall x, nonzero x -> quad x < 0.

(* what a declared shape or positiveness means *)
Definition shape_ok (s : shape) : Prop :=
  match s with
  | GENERAL => True | LOWER => lower | UPPER => upper | DIAGONAL => diagonal
  | MULTIPLE => exists a, multiple a | IDENTITY => m = n /\ multiple 1
  | MINUSID => m = n /\ multiple (- 1) | ZERO => M = 0
  end.
Definition pos_ok (p : posit) : Prop :=
  match p with
  | NA => True | PSD => psd | PD => pd | NSD => nsd | ND => nd | INDEF => symmetric
  | NZI => m = n /\ symmetric /\ inverse
  end.

(* all that the accessors say of M *)
Record says (p : props) : Prop := mkSays {
  say_inv : isInvertible p -> inverse;
  say_tri : isTriangular p -> lower \/ upper;
  say_low : isLowerTriangular p -> lower;
  say_upp : isUpperTriangular p -> upper;
  say_diag : isDiagonal p -> diagonal;
  say_mult : isMultipleOfIdentity p -> exists a, multiple a;
  say_id : isIdentity p -> m = n /\ multiple 1;
  say_mid : isMinusIdentity p -> m = n /\ multiple (- 1);
  say_zero : isZero p -> M = 0;
  say_sym : isSymmetric p -> symmetric;
  say_psd : isPositiveSemiDefinite p -> psd;
  say_pd : isPositiveDefinite p -> pd;
  say_nsd : isNegativeSemidefinite p -> nsd;
  say_nd : isNegativeDefinite p -> nd;
  say_ind : isIndefinite p -> symmetric;
  say_nzi : isNonZeroIndefinite p -> m = n /\ symmetric /\ inverse
}.
End One.

(* A matrix which may change over the states T of the program. *)
Definition has (T : Type) (m n : nat) (p : props) (M : T -> 'M[R]_(m, n)) : Prop :=
  (isConstant p -> forall t t', M t = M t') /\ forall t, says (M t) p.

(* The matrix is as the arguments of a constructor declare it; an explicit "not constant"
   or "not invertible" is taken at its word. *)
Definition meets (T : Type) (m n : nat) (a : args) (M : T -> 'M[R]_(m, n)) : Prop :=
  (forall t, shape_ok (M t) (a_shape a)) /\ (forall t, pos_ok (M t) (a_pos a)) /\
  match a_const a with
  | None => True | Some true => forall t t', M t = M t' | Some false => ~ forall t t', M t = M t'
  end /\
  match a_inv a with
  | None => True | Some true => forall t, inverse (M t) | Some false => ~ forall t, inverse (M t)
  end.

(* the sign of a factor *)
Definition sign (d : R) : comparison := if d < 0 then Lt else if 0 < d then Gt else Eq.
End Meaning.

(* the properties the public interface can build *)
Definition built (p : props) : Prop := p = default_props \/ exists a, build a = Ok p.

(* what operator+ may know of a sum: positive or negative semidefinite by declaration *)
Definition nonneg (p : props) : bool := po_eq (positiveness_ p) PSD || isPositiveDefinite p.
Definition nonpos (p : props) : bool := po_eq (positiveness_ p) NSD || isNegativeDefinite p.
