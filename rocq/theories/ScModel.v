(* Model of the construction of a substitution and of its calculator: hint::Substitution (src/hint/Substitution.cpp), the
   constructor and fillA of SubstitutionCalculatorImpl (src/hint/SubstitutionCalculatorImpl.cpp), AutoCalculator
   (src/hint/AutoCalculator.cpp). The calculators themselves are DiagModel.v and GcModel.v.
   Variables may be parts of others. Simplifications: variables are Euclidean (size, tSize and rSize are equal); the constraints
   take their jacobians from FirstOrderProvider (LinearizedTaskConstraint, which overrides jacobian, is not modelled); a matrix is
   a function of the row and the column over Q; a violated assert is UB. *)
From Coq Require Import List Bool Arith ZArith QArith.
Import ListNotations.
From Verif Require Import Base.
From Verif Require DiagModel.
Local Open Scope nat_scope.

Definition mat := nat -> nat -> Q.
(* a variable: its super variable and its subvariableRange() *)
Record var := mkV { v_b : nat; v_s : nat; v_d : nat }.
(* Variable::contains, Variable::intersects, ==: Variable.cpp:180-184, Range.h:34-43 *)
Definition inside (x : var) (i : nat) : bool := (v_s x <=? i) && (i <? v_s x + v_d x).
Definition contains (x y : var) : bool := (v_b x =? v_b y) && (inside x (v_s y) && (v_s y + v_d y <=? v_s x + v_d x)).
Definition intersects (x y : var) : bool := (v_b x =? v_b y) && (inside x (v_s y) || inside y (v_s x)).
Definition same (x y : var) : bool := (v_b x =? v_b y) && ((v_s x =? v_s y) && (v_d x =? v_d y)).

(* the properties of a matrix that matter here *)
Record props := mkP { p_diag : bool; p_inv : bool; p_const : bool }.
(* a linear constraint: its size, whether its type is EQUAL, its variables with their jacobians *)
Record jac := mkJ { j_var : var; j_mat : mat; j_prop : props }.
Record cons := mkC { c_size : nat; c_equal : bool; c_jacs : list jac }.
(* VariableVector::contains, VariableVector.cpp:166-170 *)
Definition hasVar (c : cons) (v : var) : bool := existsb (fun j => contains (j_var j) v) (c_jacs c).
(* FirstOrderProvider::jacobian, FirstOrderProvider.h:192-193 and 83-98: the matrix and the properties *)
Definition slice (M : mat) (s : nat) : mat := fun a b => M a (s + b).
Definition jacobian (c : cons) (v : var) : res (mat * props) :=
  match find (fun j => contains (j_var j) v) (c_jacs c) with
  | Some j => if same (j_var j) v then Ok (j_mat j, j_prop j)
              else Ok (slice (j_mat j) (v_s v - v_s (j_var j)), mkP false false (p_const (j_prop j)))
  | None => Throw
  end.

Definition size (l : list var) : nat := list_sum (map v_d l).
Definition rows (l : list cons) : nat := list_sum (map c_size l).

(* Substitution::check, Substitution.cpp:72-151: false when it throws *)
Fixpoint apart (l : list var) : bool :=
  match l with [] => true | x :: l' => forallb (fun y => negb (intersects x y)) l' && apart l' end.
Definition check (cs : list cons) (xs : list var) (rank : Z) : bool :=
  forallb c_equal cs &&
  apart xs &&
  forallb (fun x => existsb (fun c => hasVar c x) cs) xs &&
  forallb (fun c => existsb (fun x => hasVar c x) xs) cs &&
  (rank <=? Z.of_nat (size xs))%Z.

(* VariableVector::add for each variable, VariableVector.cpp:24-52 *)
Fixpoint addLoop (l : list var) (v : var) : res bool :=
  match l with
  | [] => Ok true
  | x :: l' => if contains x v then Ok false else if intersects x v then Throw else addLoop l' v
  end.
Definition addVar (l : list var) (v : var) : res (list var) :=
  if existsb (fun x => contains x v) l then Ok l
  else do b <- addLoop l v; Ok (if b then l ++ [v] else l).
Fixpoint addVars (l xs : list var) : res (list var) :=
  match xs with [] => Ok l | x :: xs' => do l' <- addVar l x; addVars l' xs' end.

(* What the constructor of SubstitutionCalculatorImpl leaves: variables_, m_, n_, r_, constant_, simple_ and fillData_, in which a
   constraint is given by its index (SubstitutionCalculatorImpl.h:109-126) *)
Record fill := mkF { f_v : var; f_c : nat; f_row : nat; f_col : nat; f_nr : nat; f_nc : nat }.
Record base := mkB { b_vars : list var; b_m : nat; b_n : nat; b_r : nat; b_const : bool; b_simple : bool; b_fill : list fill }.
(* the start of Variable::getMappingIn for a variable of the vector: VariableVector.cpp:208-214 *)
Fixpoint fillRow (c : cons) (i m col : nat) (vs : list var) : list fill :=
  match vs with
  | [] => []
  | v :: vs' => (if hasVar c v then [mkF v i m col (c_size c) (v_d v)] else []) ++ fillRow c i m (col + v_d v) vs'
  end.
Fixpoint fillData (cs : list cons) (i m : nat) (vs : list var) : list fill :=
  match cs with [] => [] | c :: cs' => fillRow c i m 0 vs ++ fillData cs' (S i) (m + c_size c) vs end.
(* the loop on constness, lines 171-181; jacobian does not throw since c contains v *)
Definition constness (cs : list cons) (vs : list var) : bool :=
  forallb (fun c => forallb (fun v => if hasVar c v then match jacobian c v with Ok (_, p) => p_const p | _ => false end else true) vs) cs.
(* SubstitutionCalculatorImpl::SubstitutionCalculatorImpl, SubstitutionCalculatorImpl.cpp:127-184 *)
Definition newBase (cs : list cons) (xs : list var) (rank : Z) : res base :=
  do vs <- addVars [] xs;
  if (0 <=? rank)%Z && (rows cs <=? size xs) && (rank <=? Z.of_nat (rows cs))%Z then
    let simple := (length cs =? 1) && (length xs =? 1) in
    Ok (mkB vs (rows cs) (size xs) (Z.to_nat rank) (constness cs vs) simple (if simple then [] else fillData cs 0 0 vs))
  else UB.

(* the calculators: GenericCalculator, DiagonalCalculator as given by the user, AutoCalculator *)
Inductive calculator := Generic | Diagonal (c : DiagModel.calc) | Auto.
Inductive impl := IGeneric | IDiagonal (d : DiagModel.impl).
(* GenericCalculator::impl_, GenericCalculator.cpp:19-23, with the constructor 25-29; DiagonalCalculator::impl_ is DiagModel.newImpl, after the constructor of
   the base class; AutoCalculator::impl_, AutoCalculator.cpp:17-36, where DiagonalCalculator() has first 0 and size -1
   (DiagonalCalculator.h:65) *)
Definition diagonal (k : DiagModel.calc) (cs : list cons) (xs : list var) (rank : Z) : res (base * impl) :=
  do b <- newBase cs xs rank;
  do d <- DiagModel.newImpl k (b_simple b) (b_m b) (b_n b) (b_r b); Ok (b, IDiagonal d).
Definition generic (cs : list cons) (xs : list var) (rank : Z) : res (base * impl) :=
  do b <- newBase cs xs rank; Ok (b, IGeneric).
Definition makeImpl (k : calculator) (cs : list cons) (xs : list var) (rank : Z) : res (base * impl) :=
  match k with
  | Generic => generic cs xs rank
  | Diagonal c => diagonal c cs xs rank
  | Auto =>
      match cs, xs with
      | [c], [x] =>
          do j <- jacobian c x;
          if p_diag (snd j) && p_inv (snd j)
          then diagonal (DiagModel.mkCalc 0 (-1) [] []) cs xs rank
          else generic cs xs rank
      | [], [_] | [_], [] | [], [] => UB
      | _, _ => generic cs xs rank
      end
  end.
(* Substitution::Substitution, Substitution.cpp:37-58; constant::fullRank is -1 (defs.h:108). Without variable x_.size() - 1 wraps
   around and the loop 89-101 runs 2^64 - 1 times: counted as UB. *)
Record substitution := mkS { s_rank : Z; s_m : nat; s_base : base; s_impl : impl }.
Definition newSubstitution (cs : list cons) (xs : list var) (rank : Z) (k : calculator) : res substitution :=
  let r := if (rank =? -1)%Z then Z.of_nat (rows cs) else rank in
  match xs with
  | [] => if forallb c_equal cs then UB else Throw
  | _ => if check cs xs r then do bi <- makeImpl k cs xs r; Ok (mkS r (rows cs) (fst bi) (snd bi)) else Throw
  end.

(* SubstitutionCalculatorImpl::fillA, 117-123, given the constraints as they are when it is called *)
Definition setBlock (A : mat) (r c nr nc : nat) (M : mat) : mat :=
  fun i j => if (r <=? i) && (i <? r + nr) && (c <=? j) && (j <? c + nc) then M (i - r) (j - c) else A i j.
Fixpoint fillA (cs : list cons) (l : list fill) (A : mat) : res mat :=
  match l with
  | [] => Ok A
  | f :: l' =>
      match nth_error cs (f_c f) with
      | None => UB
      | Some c => do M <- jacobian c (f_v f); fillA cs l' (setBlock A (f_row f) (f_col f) (f_nr f) (f_nc f) (fst M))
      end
  end.
(* A_ after the constructor, line 151 *)
Definition A0 : mat := fun _ _ => 0%Q.
(* The matrix an update works on: update_ of GenericCalculator.cpp:31-41 and of DiagonalCalculator.cpp:189-196;
   A_ is the member of the calculator. *)
Definition currentA (b : base) (cs : list cons) (A_ : mat) : res mat :=
  if b_simple b then
    match cs, b_vars b with c :: _, v :: _ => do M <- jacobian c v; Ok (fst M) | _, _ => UB end
  else fillA cs (b_fill b) A_.
(* successive updates: the constraints may change between them; A_ is kept *)
Fixpoint successiveA (b : base) (h : list (list cons)) (A_ : mat) : res mat :=
  match h with [] => Ok A_ | cs :: h' => do A <- currentA b cs A_; successiveA b h' (if b_simple b then A_ else A) end.

(* BasicLinearConstraint::A, BasicLinearConstraint.cpp:116-125, for a variable of the constraint and a matrix of the correct size;
   the constructors of BasicLinearConstraint declare the matrices constant (201-212). *)
Definition setA (c : cons) (i : nat) (M : mat) (p : props) : cons :=
  mkC (c_size c) (c_equal c)
      (map (fun ij => if fst ij =? i then mkJ (j_var (snd ij)) M p else snd ij) (combine (seq 0 (length (c_jacs c))) (c_jacs c))).
