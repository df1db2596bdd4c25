(* Specification for C65: the constraints as functions of the values of the variables. *)
From Coq Require Import List Bool Arith ZArith QArith.
Import ListNotations.
From Verif Require Import Base QSum ScModel.
Local Open Scope nat_scope.

(* the values of the super variables *)
Definition valuation := nat -> nat -> Q.
(* row a of the left-hand side of a constraint: the sum of the jacobians times the variables *)
Definition lhs (c : cons) (val : valuation) (a : nat) : Q :=
  qsum (fun j => qsumn (fun t => j_mat j a t * val (v_b (j_var j)) (v_s (j_var j) + t)%nat)%Q (v_d (j_var j))) (c_jacs c).
(* element t of the super variable b is an element of one of the variables *)
Definition element (b t : nat) (x : var) : Prop := v_b x = b /\ v_s x <= t < v_s x + v_d x.
Definition partOf (xs : list var) (b t : nat) : Prop := exists x, In x xs /\ element b t x.
(* row i of A times the variables xs put one after the other from column col on, with values d *)
Fixpoint times (A : mat) (i col : nat) (xs : list var) (d : valuation) : Q :=
  match xs with
  | [] => 0%Q
  | x :: xs' => (qsumn (fun t => A i (col + t)%nat * d (v_b x) (v_s x + t)%nat) (v_d x) + times A i (col + v_d x) xs' d)%Q
  end.
(* A is the matrix of the variables xs in the stacked constraints: when only xs changes, the left-hand sides change by A times
   the change of xs. *)
Definition matrixOf (cs : list cons) (xs : list var) (A : mat) : Prop :=
  forall l1 c l2 a val val', cs = l1 ++ c :: l2 -> a < c_size c ->
    (forall b t, ~ partOf xs b t -> (val b t == val' b t)%Q) ->
    (lhs c val' a - lhs c val a == times A (rows l1 + a) 0 xs (fun b t => val' b t - val b t))%Q.

(* two variables have a common element *)
Definition common (x y : var) : Prop := exists b t, element b t x /\ element b t y.
(* every element of y is one of x *)
Definition within (y x : var) : Prop := forall b t, element b t y -> element b t x.
Fixpoint pairwise {A} (R : A -> A -> Prop) (l : list A) : Prop :=
  match l with [] => True | x :: l' => (forall y, In y l' -> R x y) /\ pairwise R l' end.
(* the variables of a constraint, and those that are substituted, are not empty; those of a constraint are disjoint (this is kept
   by VariableVector::add) *)
Definition nonEmpty (x : var) : Prop := 0 < v_d x.
Definition proper (cs : list cons) (xs : list var) : Prop :=
  (forall x, In x xs -> nonEmpty x) /\
  forall c, In c cs -> (forall j, In j (c_jacs c) -> nonEmpty (j_var j)) /\ pairwise (fun i j => ~ common (j_var i) (j_var j)) (c_jacs c).
(* a substituted variable is not spread over variables of a constraint, nor partly out of them *)
Definition aligned (cs : list cons) (xs : list var) : Prop :=
  forall c j x, In c cs -> In j (c_jacs c) -> In x xs -> common (j_var j) x -> within x (j_var j).
(* the same constraints at another time: the jacobians have changed *)
Definition later (c c' : cons) : Prop := c_size c = c_size c' /\ map j_var (c_jacs c) = map j_var (c_jacs c').

(* What is needed of the constraints and variables of a substitution (Substitution.cpp:72-151) *)
Definition accepted (cs : list cons) (xs : list var) (r : Z) : Prop :=
  (forall c, In c cs -> c_equal c = true) /\
  pairwise (fun x y => ~ common x y) xs /\
  (forall x, In x xs -> exists c j, In c cs /\ In j (c_jacs c) /\ within x (j_var j)) /\
  (forall c, In c cs -> exists j x, In j (c_jacs c) /\ In x xs /\ within x (j_var j)) /\
  (r <= Z.of_nat (size xs))%Z.
(* the declared properties of a jacobian are true *)
Definition diagonalRegular (m n : nat) (A : mat) : Prop :=
  m = n /\ forall i j, i < m -> j < n -> (i = j <-> ~ (A i j == 0)%Q).
(* what is constant according to the constraints cs0 is the same in cs and cs' *)
Definition unchanged (cs0 cs cs' : list cons) : Prop :=
  forall i c0 c c' k j0 j j', nth_error cs0 i = Some c0 -> nth_error cs i = Some c -> nth_error cs' i = Some c' ->
    nth_error (c_jacs c0) k = Some j0 -> nth_error (c_jacs c) k = Some j -> nth_error (c_jacs c') k = Some j' ->
    p_const (j_prop j0) = true -> forall a b, (j_mat j a b == j_mat j' a b)%Q.
(* one constraint, one variable, whose jacobian (for the whole variable) is declared diagonal and invertible *)
Definition diagonalDeclared (cs : list cons) (xs : list var) : Prop :=
  exists c j, cs = [c] /\ xs = [j_var j] /\ In j (c_jacs c) /\ p_diag (j_prop j) = true /\ p_inv (j_prop j) = true.
