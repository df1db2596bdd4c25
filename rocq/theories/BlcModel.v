(* Model of tvm::constraint::BasicLinearConstraint (src/constraint/BasicLinearConstraint.cpp), with what
   it uses of src/constraint/Constraint.cpp, src/constraint/RHSVectors.cpp,
   src/constraint/LinearConstraint.cpp and src/internal/FirstOrderProvider.cpp.
   A pointer to a variable is a number; [V] gives the variable it points to: two pointers may point to
   equal variables.  Variables, vectors and matrices are those of LinFunModel.v, doubles are rationals.
   The row size given to a constructor is a natural number.  What is allocated but not written yet is
   [None]; using it is undefined, and so is a violated assertion.  variables_ and the keys of jacobian_
   are the same list, the order of which is that of additions.  The call graph is left out: value() is
   what updateValue computes. *)
Require Import QArith ZArith List Bool.
Require Import Verif.Base Verif.QSum Verif.RangeModel Verif.SpaceModel Verif.VarCountingModel Verif.LinFunModel.
Import ListNotations.

(* include/tvm/constraint/enums.h *)
Inductive btype := BEqual | BGreater | BLower | BDouble.
Inductive brhs := BZero | BAsGiven | BOpposite.
Definition isDouble (t : btype) : bool := match t with BDouble => true | _ => false end.
Definition isZeroRhs (r : brhs) : bool := match r with BZero => true | _ => false end.

(* MatrixProperties: shape and constness; the default, and the one given by add (line 211) *)
Record mprops := mkMP { p_shape : mshape; p_const : bool }.
Definition dfltP : mprops := mkMP General false.
Definition constP : mprops := mkMP General true.

(* An element of jacobian_: its sizes, its coefficients if they have been written, its properties *)
Record bjac := mkBJ { q_rows : nat; q_cols : Z; q_mat : option mat; q_props : mprops }.
(* [None] for a disabled output (Constraint.cpp:28-33), [Some None] for an output not written yet *)
Record blc := mkBlc { b_type : btype; b_rhs : brhs; b_size : nat; b_jac : list (nat * bjac);
  b_l : option (option vec); b_u : option (option vec); b_e : option (option vec) }.

Section Blc.
Variables (base : nat -> bool) (V : nat -> cvar).

(* Constraint::Constraint, Constraint.cpp:15-34, with RHSVectors.cpp:11-27 *)
Definition newBlc (t : btype) (r : brhs) (m : nat) : res blc :=
  if isDouble t && isZeroRhs r then Throw
  else
    let use (b : bool) : option (option vec) := if b && negb (isZeroRhs r) then Some None else None in
    Ok (mkBlc t r m [] (use (match t with BGreater | BDouble => true | _ => false end))
                       (use (match t with BLower | BDouble => true | _ => false end))
                       (use (match t with BEqual => true | _ => false end))).

(* VariableVector::add, VariableVector.cpp:24-44: is the variable already there *)
Definition vecAdd (l : list nat) (x : nat) : res bool :=
  if existsb (fun y => vcont base (V y) (V x)) l then Ok false
  else if existsb (fun y => vint base (V y) (V x)) l then Throw else Ok true.
(* FirstOrderProvider::addVariable, FirstOrderProvider.cpp:40-49 *)
Definition addVar (c : blc) (x : nat) : res blc :=
  do fresh <- vecAdd (map fst (b_jac c)) x;
  if fresh then Ok (mkBlc (b_type c) (b_rhs c) (b_size c) (b_jac c ++ [(x, mkBJ (b_size c) (tSize (c_space (V x))) None dfltP)]) (b_l c) (b_u c) (b_e c))
  else Ok c.

(* jacobian_.at(x) = A; jacobian_.at(x).properties(p), with the assertion of MatrixWithProperties.h:82-84 *)
Fixpoint assign (jac : list (nat * bjac)) (x : nat) (A : mat) (p : mprops) : res (list (nat * bjac)) :=
  match jac with
  | [] => Throw
  | (y, J) :: jac =>
      if Nat.eqb y x then
        if Nat.eqb (q_rows J) (mr A) && Z.eqb (q_cols J) (Z.of_nat (mc A)) then Ok ((y, mkBJ (q_rows J) (q_cols J) (Some A) p) :: jac) else UB
      else do jac' <- assign jac x A p; Ok ((y, J) :: jac')
  end.
Definition setJac (c : blc) (x : nat) (A : mat) (p : mprops) : res blc :=
  do jac <- assign (b_jac c) x A p; Ok (mkBlc (b_type c) (b_rhs c) (b_size c) jac (b_l c) (b_u c) (b_e c)).

(* add, lines 201-212 *)
Definition blcAdd (c : blc) (A : mat) (x : nat) : res blc :=
  if negb (isEuclideanS (c_space (V x))) && base (c_sup (V x)) then Throw
  else if negb (Nat.eqb (mr A) (b_size c)) then Throw
  else if negb (Z.eqb (Z.of_nat (mc A)) (vsize base (V x))) then Throw
  else do c <- addVar c x; setJac c x A constP.
Fixpoint blcAdds (c : blc) (l : list (mat * nat)) : res blc :=
  match l with [] => Ok c | (A, x) :: l => do c <- blcAdd c A x; blcAdds c l end.

(* b, lines 137-163 *)
Definition setb (c : blc) (b : vec) : res blc :=
  if negb (isDouble (b_type c)) && negb (isZeroRhs (b_rhs c)) then
    if Nat.eqb (vn b) (b_size c) then
      Ok (match b_type c with
          | BEqual => mkBlc (b_type c) (b_rhs c) (b_size c) (b_jac c) (b_l c) (b_u c) (Some (Some b))
          | BGreater => mkBlc (b_type c) (b_rhs c) (b_size c) (b_jac c) (Some (Some b)) (b_u c) (b_e c)
          | BLower => mkBlc (b_type c) (b_rhs c) (b_size c) (b_jac c) (b_l c) (Some (Some b)) (b_e c)
          | BDouble => c
          end)
    else Throw
  else Throw.
(* l, lines 165-182; u, lines 184-199 *)
Definition setl (c : blc) (l : vec) : res blc :=
  if isDouble (b_type c) && negb (isZeroRhs (b_rhs c)) then
    if Nat.eqb (vn l) (b_size c) then Ok (mkBlc (b_type c) (b_rhs c) (b_size c) (b_jac c) (Some (Some l)) (b_u c) (b_e c)) else Throw
  else Throw.
Definition setu (c : blc) (u : vec) : res blc :=
  if isDouble (b_type c) && negb (isZeroRhs (b_rhs c)) then
    if Nat.eqb (vn u) (b_size c) then Ok (mkBlc (b_type c) (b_rhs c) (b_size c) (b_jac c) (b_l c) (Some (Some u)) (b_e c)) else Throw
  else Throw.
(* A(A, x, p), lines 116-125; A(A, p), lines 127-135 *)
Definition blcA (c : blc) (A : mat) (x : nat) (p : mprops) : res blc :=
  if Nat.eqb (mr A) (b_size c) && Z.eqb (Z.of_nat (mc A)) (vsize base (V x)) then setJac c x A p else Throw.
Definition blcA1 (c : blc) (A : mat) (p : mprops) : res blc :=
  match b_jac c with [(x, _)] => blcA c A x p | _ => Throw end.

(* The constructors.  Those with one matrix and one variable, lines 13-15, 34-40 and 68-74, are the case of
   lists of one element. *)
Inductive ctor :=
  | Homogeneous (As : list mat) (xs : list nat) (t : btype)
  | WithB (As : list mat) (xs : list nat) (b : vec) (t : btype) (r : brhs)
  | WithLU (As : list mat) (xs : list nat) (l u : vec) (r : brhs)
  | Allocated (m : nat) (xs : list nat) (t : btype) (r : brhs).
(* the constructors without matrix, lines 104-114: the loop on the variables *)
Fixpoint addVars (c : blc) (xs : list nat) : res blc :=
  match xs with [] => Ok c | x :: xs => do c <- addVar c x; addVars c xs end.
Definition construct (k : ctor) : res blc :=
  match k with
  | Homogeneous As xs t => (* lines 17-32 *)
      match As with
      | [] => UB (* A.begin()->rows() *)
      | A0 :: _ =>
          do c <- newBlc t BZero (mr A0);
          if isDouble t then Throw
          else if negb (Nat.eqb (length As) (length xs)) then Throw
          else blcAdds c (combine As xs)
      end
  | WithB As xs b t r => (* lines 42-66 *)
      match As with
      | [] => UB
      | A0 :: _ =>
          do c <- newBlc t r (mr A0);
          if isDouble t then Throw
          else if isZeroRhs r then Throw
          else if negb (Nat.eqb (length As) (length xs)) then Throw
          else if negb (Nat.eqb (vn b) (b_size c)) then Throw
          else do c <- blcAdds c (combine As xs); setb c b
      end
  | WithLU As xs l u r => (* lines 76-102 *)
      match As with
      | [] => UB
      | A0 :: _ =>
          do c <- newBlc BDouble r (mr A0);
          if isZeroRhs r then Throw
          else if negb (Nat.eqb (length As) (length xs)) then Throw
          else if negb (Nat.eqb (vn l) (b_size c)) then Throw
          else if negb (Nat.eqb (vn u) (b_size c)) then Throw
          else do c <- blcAdds c (combine As xs); do c <- setl c l; setu c u
      end
  | Allocated m xs t r => do c <- newBlc t r m; addVars c xs
  end.

(* The calls a user can make on it; those that throw change nothing (they check before they write) *)
Inductive bop := OA (A : mat) (x : nat) (p : mprops) | OA1 (A : mat) (p : mprops) | Ob (b : vec) | Ol (l : vec) | Ou (u : vec).
Definition bstep (c : blc) (o : bop) : res blc :=
  match o with
  | OA A x p => blcA c A x p
  | OA1 A p => blcA1 c A p
  | Ob b => setb c b
  | Ol l => setl c l
  | Ou u => setu c u
  end.
(* A sequence of calls; the user catches the exceptions.  The booleans tell which calls returned normally. *)
Fixpoint brun (c : blc) (ops : list bop) : res (blc * list bool) :=
  match ops with
  | [] => Ok (c, [])
  | o :: ops =>
      match bstep c o with
      | Ok c => do (c, fl) <- brun c ops; Ok (c, true :: fl)
      | Throw => do (c, fl) <- brun c ops; Ok (c, false :: fl)
      | UB => UB
      end
  end.

(* LinearConstraint::updateValue, LinearConstraint.cpp:21-28; jacobian(v) is found by its pointer *)
Fixpoint blcSum (env : nat -> Z -> Q) (acc : vec) (jac : list (nat * bjac)) : res vec :=
  match jac with
  | [] => Ok acc
  | (x, J) :: jac =>
      match q_mat J with
      | None => UB
      | Some M => match mvmul M (valueOf base env (V x)) with
                  | Some w => match vadd acc w with Some acc => blcSum env acc jac | None => UB end
                  | None => UB
                  end
      end
  end.
Definition blcValue (env : nat -> Z -> Q) (c : blc) : res vec := blcSum env (zero (b_size c)) (b_jac c).
End Blc.
