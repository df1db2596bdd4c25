(* What the bounds of a problem mean, for one component x of the variable. *)
Require Import QArith Qabs List.
Require Import Verif.AssignModel Verif.BoundModel.
Local Open Scope Q_scope.

(* the right-hand side that the constraint declares *)
Definition declared (r : rhs) (v : Q) : Q := match r with RZERO => 0 | AS_GIVEN => v | OPPOSITE => - v end.
(* the constraint d x = e, d x >= l, d x <= u, l <= d x <= u *)
Definition bound_holds (s : bsource) (V : bvalues) (x : Q) : Prop :=
  let v := declared (b_rhs s) in
  match b_type s with
  | EQUAL => bv_d V * x == v (bv_e V)
  | GREATER_THAN => v (bv_l V) <= bv_d V * x
  | LOWER_THAN => bv_d V * x <= v (bv_u V)
  | DOUBLE_SIDED => v (bv_l V) <= bv_d V * x /\ bv_d V * x <= v (bv_u V)
  end.
(* the diagonal element is what the properties of the matrix say *)
Definition true_props (s : bsource) (V : bvalues) : Prop :=
  match b_prop s with
  | BId => bv_d V == 1 | BMinusId => bv_d V == - (1)
  | BPos => 0 < bv_d V | BNeg => bv_d V < 0 | BDiag => ~ bv_d V == 0
  end.
Definition is_pure (s : bsource) : bool := match b_prop s with BId | BMinusId => true | _ => false end.
Definition is_single (s : bsource) : bool := match b_type s with GREATER_THAN | LOWER_THAN => true | _ => false end.
(* x is within the range where the constant big stands for infinity *)
Definition in_reach (big : Q) (s : bsource) (V : bvalues) (x : Q) : Prop :=
  is_single s = true -> if is_pure s then Qabs x <= big else Qabs x < Qabs (bv_d V) * big.
(* the two sides of a DOUBLE_SIDED bound are ordered *)
Definition ordered (s : bsource) (V : bvalues) : Prop :=
  b_type s = DOUBLE_SIDED -> declared (b_rhs s) (bv_l V) <= declared (b_rhs s) (bv_u V).
Definition inbox (lu : Q * Q) (x : Q) : Prop := fst lu <= x /\ x <= snd lu.
(* what the result for x needs of one bound *)
Definition fits (big : Q) (x : Q) (p : bsource * bvalues) : Prop :=
  true_props (fst p) (snd p) /\ in_reach big (fst p) (snd p) x /\ (is_pure (fst p) = false -> ordered (fst p) (snd p)).

