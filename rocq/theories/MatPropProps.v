(* C19-C21: MatrixProperties *)
From mathcomp Require Import all_ssreflect all_algebra.
Require Import Verif.Base Verif.MatPropModel Verif.MatPropSpec Verif.MatPropProofs4 Verif.MatPropProps0.
Set Implicit Arguments.
Unset Strict Implicit.
Unset Printing Implicit Defensive.
Import GRing.Theory Num.Theory.
Local Open Scope ring_scope.

(* C19: what the result declares is true of the result. T: the states of the program. *)
Theorem C19_neg (R : realFieldType) (T : Type) m n p q (M : T -> 'M[R]_(m, n)) :
  built p -> has p M -> mp_neg p = Ok q -> has q (fun t => - M t).
Proof. exact: neg_ok. Qed.
Theorem C19_add (R : realFieldType) (T : Type) m n p1 p2 q (A B : T -> 'M[R]_(m, n)) :
  built p1 -> built p2 -> has p1 A -> has p2 B -> mp_add p1 p2 = Ok q -> has q (fun t => A t + B t).
Proof. exact: add_ok. Qed.
Theorem C19_sub (R : realFieldType) (T : Type) m n p1 p2 q (A B : T -> 'M[R]_(m, n)) :
  built p1 -> built p2 -> has p1 A -> has p2 B -> mp_sub p1 p2 = Ok q -> has q (fun t => A t - B t).
Proof. exact: sub_ok. Qed.
Theorem C19_mul (R : realFieldType) (T : Type) m n k p1 p2 q (A : T -> 'M[R]_(m, n)) (B : T -> 'M[R]_(n, k)) :
  has p1 A -> has p2 B -> mp_mul p1 p2 = Ok q -> has q (fun t => A t *m B t).
Proof. exact: mul_ok. Qed.
(* Full statement: for every factor d. Missing: d other than 0, 1, -1 on +-I, where it is false. *)
Theorem C19_scale_partial (R : realFieldType) (T : Type) m n p q (M : T -> 'M[R]_(m, n)) (d : R) :
  built p -> has p M -> (isIdentity p || isMinusIdentity p -> d = 1 \/ d = -1 \/ d = 0) ->
  mp_scale (sign d) p = Ok q -> has q (fun t => d *: M t).
Proof. exact: scale_ok. Qed.
(* 2*I is declared to be I. *)
Theorem C19_scale_refuted (R : realFieldType) :
  exists p q (M : unit -> 'M[R]_(1, 1)) (d : R),
    built p /\ has p M /\ mp_scale (sign d) p = Ok q /\ isIdentity q /\ ~ has q (fun t => d *: M t).
Proof. exact: scale_wrong. Qed.

(* C20: exactly when the operators throw. The claim "never" is true of the negation only. *)
Theorem C20_neg : forall p, built p -> exists q, mp_neg p = Ok q.
Proof. exact: neg_total. Qed.
Theorem C20_scale : forall p d, built p ->
  (mp_scale d p = Throw /\ d = Eq /\ ~~ isConstant p) \/ ((exists q, mp_scale d p = Ok q) /\ (d = Eq -> isConstant p)).
Proof. exact: scale_total. Qed.
Theorem C20_add : forall p q, built p -> built q ->
  let definite := (isPositiveDefinite p \/ isPositiveDefinite q) /\ nonneg p /\ nonneg q
               \/ (isNegativeDefinite p \/ isNegativeDefinite q) /\ nonpos p /\ nonpos q in
  let unit_plus_zero := (isIdentity p \/ isMinusIdentity p) /\ isZero q \/ (isIdentity q \/ isMinusIdentity q) /\ isZero p in
  (mp_add p q = Throw /\ (definite \/ unit_plus_zero)) \/ ((exists r, mp_add p q = Ok r) /\ ~ (definite \/ unit_plus_zero)).
Proof. exact: add_total. Qed.
Theorem C20_sub : forall p q, built p -> built q -> exists q', mp_neg q = Ok q' /\ mp_sub p q = mp_add p q'.
Proof. exact: sub_total. Qed.
Theorem C20_mul : forall p q, built p -> built q ->
  (mp_mul p q = Throw /\ (isZero p \/ isZero q) /\ ~~ (isConstant p && isConstant q)) \/
  ((exists r, mp_mul p q = Ok r) /\ ~ ((isZero p \/ isZero q) /\ ~~ (isConstant p && isConstant q))).
Proof. exact: mul_total. Qed.
(* I + I, and 0 * M for a varying M, throw although the operands are consistent. *)
Theorem C20_never_throws_refuted (R : realFieldType) :
  (exists p (M : unit -> 'M[R]_(1, 1)), built p /\ has p M /\ mp_add p p = Throw) /\
  (exists p (M : bool -> 'M[R]_(1, 1)), built p /\ has p M /\ mp_scale (sign (0 : R)) p = Throw) /\
  (exists p q (M N : bool -> 'M[R]_(1, 1)), built p /\ built q /\ has p M /\ has q N /\ mp_mul p q = Throw).
Proof. exact: throws_wrong. Qed.

(* C21: what is accepted is implied by the arguments, for square matrices and, unless a
   positiveness is declared of a triangular matrix, for any matrix ... *)
Theorem C21_implied (R : realFieldType) T m n a q (M : T -> 'M[R]_(m, n)) :
  m = n \/ a_pos a = NA \/ (a_shape a <> LOWER /\ a_shape a <> UPPER) -> meets a M -> build a = Ok q -> has q M.
Proof. exact: implied. Qed.
(* ... what is rejected has no model (of at least one row) ... *)
Theorem C21_rejected (R : realFieldType) (T : Type) (t0 : T) m n a (M : T -> 'M[R]_(m, n)) :
  (0 < m)%N -> build a = Throw -> ~ meets a M.
Proof. exact: throw_unmet. Qed.
(* ... what is accepted has one, and there is no third outcome. *)
Theorem C21_accepted (R : realFieldType) a q :
  build a = Ok q -> exists M : bool -> 'M[R]_(1, 1), meets a M.
Proof. exact: accepted. Qed.
Theorem C21_outcomes a : build a = Throw \/ exists q, build a = Ok q.
Proof. exact: outcomes. Qed.

(* Non-vacuity *)
Example C19_ex : exists p q r, built p /\ built q /\ mp_add p q = Ok r /\ isDiagonal r /\ isConstant r /\ positiveness_ r = INDEF.
Proof.
exists (mkP true true IDENTITY true PD), (mkP true false DIAGONAL true INDEF), (mkP true false DIAGONAL true INDEF).
split; [by right; exists (mkArgs IDENTITY NA None None)|].
split; [by right; exists (mkArgs DIAGONAL NA (Some true) None)|by []].
Qed.
Example C19_ex_matrix (R : realFieldType) : has (mkP true true IDENTITY true PD) (fun _ : bool => (1%:M : 'M[R]_(3, 3))).
Proof. exact: ident_has. Qed.
Example C20_ex : mp_add (mkP true true IDENTITY true PD) (mkP true false ZERO true INDEF) = Throw.
Proof. by []. Qed.
Example C21_ex : build (mkArgs LOWER PSD None (Some true)) = Ok (mkP false true DIAGONAL true PD)
  /\ build (mkArgs MULTIPLE PD None (Some false)) = Throw.
Proof. by []. Qed.

Print Assumptions C19_neg.
Print Assumptions C19_add.
Print Assumptions C19_sub.
Print Assumptions C19_mul.
Print Assumptions C19_scale_partial.
Print Assumptions C19_scale_refuted.
Print Assumptions C20_neg.
Print Assumptions C20_scale.
Print Assumptions C20_add.
Print Assumptions C20_sub.
Print Assumptions C20_mul.
Print Assumptions C20_never_throws_refuted.
Print Assumptions C21_implied.
Print Assumptions C21_rejected.
Print Assumptions C21_accepted.
Print Assumptions C21_outcomes.
