(* Model of tvm::function::BasicLinearFunction (src/function/BasicLinearFunction.cpp,
   include/tvm/function/BasicLinearFunction.h), of the affine expressions it is built from
   (include/tvm/utils/AffineExpr.h, include/tvm/utils/internal/AffineExprOperators.h,
   AffineExprDetail.h) and of tvm::function::abstract::LinearFunction
   (src/function/LinearFunction.cpp).
   Variables are those of VarCountingModel.v.  Doubles are rationals.  A matrix is its sizes and its
   entries.  A jacobian map is the list of its entries in the order of addition: std::map orders
   them by id, but at most one of its entries contains a given variable.  Pointers are left out,
   so is the lookup by pointer that precedes the search of a containing variable.  The life time
   of the references kept by the expressions and the call graph are left out. *)
Require Import QArith ZArith List Bool.
Require Import Verif.Base Verif.QSum Verif.RangeModel Verif.SpaceModel Verif.VarCountingModel.
Import ListNotations.
Local Open Scope Z_scope.

Record vec := mkVec { vn : nat; ve : nat -> Q }.
Record mat := mkMat { mr : nat; mc : nat; me : nat -> nat -> Q }.
(* MatrixProperties::Shape, those the code gives *)
Inductive mshape := General | Ident | MinusIdent | MultIdent.

(* Eigen operators on well-sized operands; [None] is a violated size assertion *)
Definition vadd (a b : vec) : option vec :=
  if Nat.eqb (vn a) (vn b) then Some (mkVec (vn a) (fun i => ve a i + ve b i)%Q) else None.
Definition vscal (s : Q) (a : vec) : vec := mkVec (vn a) (fun i => s * ve a i)%Q.
Definition vneg (a : vec) : vec := mkVec (vn a) (fun i => - ve a i)%Q.
Definition mvmul (M : mat) (a : vec) : option vec :=
  if Nat.eqb (mc M) (vn a) then Some (mkVec (mr M) (fun i => qsumn (fun j => me M i j * ve a j)%Q (mc M))) else None.
Definition mmmul (M A : mat) : option mat :=
  if Nat.eqb (mc M) (mr A) then Some (mkMat (mr M) (mc A) (fun i j => qsumn (fun l => me M i l * me A l j)%Q (mc M))) else None.
Definition mscal (s : Q) (A : mat) : mat := mkMat (mr A) (mc A) (fun i j => s * me A i j)%Q.
Definition mneg (A : mat) : mat := mkMat (mr A) (mc A) (fun i j => - me A i j)%Q.
Definition mid (n : nat) : mat := mkMat n n (fun i j => if Nat.eqb i j then 1 else 0)%Q.

Section WithSupers.
Variables (spOf : nat -> space) (base : nat -> bool).

(* Variable::size(), Variable.h: representation or tangent space *)
Definition vsize (x : cvar) : Z := if base (c_sup x) then rSize (c_space x) else tSize (c_space x).
(* Variable.cpp:160-178 subvariableRange, tSubvariableRange *)
Definition subRange (x : cvar) : Range := mkRange (if base (c_sup x) then rSize (c_shift x) else tSize (c_shift x)) (vsize x).
Definition tSubRange (x : cvar) : Range := tRng (c_shift x) (c_space x).
(* Variable.cpp:180-184 *)
Definition vcont (x y : cvar) : bool := Nat.eqb (c_sup x) (c_sup y) && containsR (subRange x) (subRange y).
Definition vint (x y : cvar) : bool := Nat.eqb (c_sup x) (c_sup y) && intersects (subRange x) (subRange y).

(* ---- expressions ---- *)
(* AffineExpr.h:24-56; the shape is the type of the matrix expression (BasicLinearFunction.h:158-173) *)
Record lin := mkLin { l_mat : mat; l_var : cvar; l_shape : mshape }.
(* AffineExpr.h:69-114; [None] is NoConstant *)
Record aff := mkAff { a_cst : option vec; a_lin : list lin }.
(* What an operand may be: a variable, an Eigen vector, a LinearExpr, an AffineExpr *)
Inductive operand := PVar (x : cvar) | PCst (b : vec) | PLin (l : lin) | PAff (a : aff).

(* AffineExpr.h:29-30, 33-35, 38-41, 44-46 *)
Definition linM (M : mat) (x : cvar) : option lin := if Z.eqb (Z.of_nat (mc M)) (vsize x) then Some (mkLin M x General) else None.
Definition linI (x : cvar) : lin := mkLin (mid (Z.to_nat (vsize x))) x Ident.
Definition linS (s : Q) (x : cvar) : lin := mkLin (mscal s (mid (Z.to_nat (vsize x)))) x MultIdent.
Definition linN (x : cvar) : lin := mkLin (mneg (mid (Z.to_nat (vsize x)))) x MinusIdent.

(* AffineExprDetail.h:31-47: sums of constants *)
Definition cadd (a b : option vec) : option (option vec) :=
  match a, b with
  | None, _ => Some b
  | _, None => Some a
  | Some u, Some v => match vadd u v with Some w => Some (Some w) | None => None end
  end.
(* AffineExprOperators.h:14-18 (the type of -A is MinusIdentityType for the identity) *)
Definition lneg (l : lin) : lin := mkLin (mneg (l_mat l)) (l_var l) (match l_shape l with Ident => MinusIdent | _ => General end).
(* AffineExprOperators.h:92-97 for a scalar and for a matrix *)
Definition lscal (s : Q) (l : lin) : lin := mkLin (mscal s (l_mat l)) (l_var l) (match l_shape l with Ident => MultIdent | _ => General end).
Definition lmul (M : mat) (l : lin) : option lin :=
  match mmmul M (l_mat l) with Some A => linM A (l_var l) | None => None end.
Fixpoint lmuls (M : mat) (l : list lin) : option (list lin) :=
  match l with
  | [] => Some []
  | t :: l => match lmul M t, lmuls M l with Some t', Some l' => Some (t' :: l') | _, _ => None end
  end.

(* operator- (unary): :14-18, :21-26, :124-125 *)
Definition oneg (p : operand) : option operand :=
  match p with
  | PVar x => Some (PLin (linN x))
  | PCst b => Some (PCst (vneg b))
  | PLin l => Some (PLin (lneg l))
  | PAff a => Some (PAff (mkAff (option_map vneg (a_cst a)) (map lneg (a_lin a))))
  end.
(* operator* with a scalar: :31-36, :92-97, :128-132 *)
Definition oscal (s : Q) (p : operand) : option operand :=
  match p with
  | PVar x => if Qeq_bool s 0 then None (* :130 assert *) else Some (PLin (linS s x))
  | PCst b => Some (PCst (vscal s b))
  | PLin l => Some (PLin (lscal s l))
  | PAff a => Some (PAff (mkAff (option_map (vscal s) (a_cst a)) (map (lscal s) (a_lin a))))
  end.
(* operator* with a matrix: :31-36, :92-97, :119-121 *)
Definition omul (M : mat) (p : operand) : option operand :=
  match p with
  | PVar x => option_map PLin (linM M x)
  | PCst b => option_map PCst (mvmul M b)
  | PLin l => option_map PLin (lmul M l)
  | PAff a =>
      match a_cst a with
      | None => option_map (fun l => PAff (mkAff None l)) (lmuls M (a_lin a))
      | Some b => match mvmul M b, lmuls M (a_lin a) with Some c, Some l => Some (PAff (mkAff (Some c) l)) | _, _ => None end
      end
  end.
(* operator+ on expressions: :39-89 *)
Definition oadd' (p q : operand) : option operand :=
  match p, q with
  | PLin l, PCst c | PCst c, PLin l => Some (PAff (mkAff (Some c) [l]))
  | PLin l, PLin r => Some (PAff (mkAff None [l; r]))
  | PAff a, PLin r => Some (PAff (mkAff (a_cst a) (a_lin a ++ [r])))
  | PLin l, PAff a => Some (PAff (mkAff (a_cst a) (l :: a_lin a)))
  | PAff a, PCst c => option_map (fun b => PAff (mkAff b (a_lin a))) (cadd (a_cst a) (Some c))
  | PCst c, PAff a => option_map (fun b => PAff (mkAff b (a_lin a))) (cadd (Some c) (a_cst a))
  | PAff a, PAff a' => option_map (fun b => PAff (mkAff b (a_lin a ++ a_lin a'))) (cadd (a_cst a) (a_cst a'))
  | PCst b, PCst c => option_map PCst (vadd b c)
  | PVar _, _ | _, PVar _ => None
  end.
(* :135-153 *)
Definition oadd (p q : operand) : option operand :=
  match p, q with
  | PVar u, PVar v => oadd' (PLin (linI u)) (PLin (linI v))
  | a, PVar v => oadd' a (PLin (linI v))
  | PVar v, a => oadd' (PLin (linI v)) a
  | _, _ => oadd' p q
  end.
(* operator- (binary): :100-114, :156-174; there is none from a vector for LinearExpr and AffineExpr *)
Definition osub (p q : operand) : option operand :=
  match p, q with
  | PVar u, PVar v => oadd' (PLin (linI u)) (PLin (linN v))
  | a, PVar v => oadd' a (PLin (linN v))
  | PVar v, a => match oneg a with Some b => oadd' (PLin (linI v)) b | None => None end
  | PCst b, PCst c => option_map PCst (vadd b (vneg c))
  | PCst _, _ => None
  | a, b => match oneg b with Some c => oadd' a c | None => None end
  end.

(* An expression as written by the user.  [None]: it does not compile, or an assertion fails. *)
Inductive expr :=
  | EVar (x : cvar) | ECst (b : vec) | ENeg (e : expr) | EScal (s : Q) (e : expr) | EMul (M : mat) (e : expr)
  | EAdd (e f : expr) | ESub (e f : expr).
Fixpoint build (e : expr) : option operand :=
  match e with
  | EVar x => Some (PVar x)
  | ECst b => Some (PCst b)
  | ENeg e => match build e with Some p => oneg p | None => None end
  | EScal s e => match build e with Some p => oscal s p | None => None end
  | EMul M e => match build e with Some p => omul M p | None => None end
  | EAdd e f => match build e, build f with Some p, Some q => oadd p q | _, _ => None end
  | ESub e f => match build e, build f with Some p, Some q => osub p q | _, _ => None end
  end.

(* ---- the function ---- *)
(* FirstOrderProvider.h: variables_ and jacobian_ with the shapes; LinearFunction.h: b_ *)
Record jent := mkJ { j_var : cvar; j_mat : mat; j_shape : mshape }.
Record blf := mkF { f_size : nat; f_jac : list jent; f_b : vec }.

(* FirstOrderProvider.cpp:40-49 with VariableVector.cpp:24-44: [None] if the variable is already there *)
Definition addVariable (n : nat) (jac : list jent) (x : cvar) (J : mat) (sh : mshape) : res (option (list jent)) :=
  if existsb (fun j => vcont (j_var j) x) jac then Ok None
  else if existsb (fun j => vint (j_var j) x) jac then Throw
  else Ok (Some (jac ++ [mkJ x J sh])).

(* MapWithVariableAsKey::at(x, with_sub) followed by += A (BasicLinearFunction.h:146-148): the first
   entry whose variable contains x, the whole of it if it is x, else the columns of x *)
Fixpoint plusAt (jac : list jent) (x : cvar) (A : mat) : res (list jent) :=
  match jac with
  | [] => Throw
  | j :: jac =>
      if vcont (j_var j) x then
        let rel := if req (subRange (j_var j)) (subRange x) then mkRange 0 (Z.of_nat (mc (j_mat j)))
                   else relativeRange (tSubRange (j_var j)) (tSubRange x) in
        if (0 <=? start rel) && (rend rel <=? Z.of_nat (mc (j_mat j))) && (dim rel =? Z.of_nat (mc A)) && Nat.eqb (mr A) (mr (j_mat j)) then
          let J := mkMat (mr (j_mat j)) (mc (j_mat j))
                     (fun i c => if (start rel <=? Z.of_nat c) && (Z.of_nat c <? rend rel)
                                 then me (j_mat j) i c + me A i (c - Z.to_nat (start rel)) else me (j_mat j) i c)%Q in
          Ok (mkJ (j_var j) J General :: jac)
        else UB
      else do jac' <- plusAt jac x A; Ok (j :: jac')
  end.
(* BasicLinearFunction.h:134-176; the resize in addVariable is overwritten by the assignment *)
Definition addTerm (n : nat) (jac : list jent) (l : lin) : res (list jent) :=
  let A := l_mat l in let x := l_var l in
  if negb (isEuclideanS (c_space x)) && base (c_sup x) then Throw
  else if negb (Nat.eqb (mr A) n) then Throw
  else if negb (Z.of_nat (mc A) =? vsize x) then Throw
  else if existsb (fun j => vcont (j_var j) x) jac then plusAt jac x A
  else do o <- addVariable n jac x A (l_shape l);
       match o with Some jac' => Ok jac' | None => Throw (* out_of_range *) end.
Fixpoint addTerms (n : nat) (jac : list jent) (l : list lin) : res (list jent) :=
  match l with [] => Ok jac | t :: l => do jac' <- addTerm n jac t; addTerms n jac' l end.

(* BasicLinearFunction.cpp:74-83 *)
Definition setB (f : blf) (b : vec) : res blf :=
  if Nat.eqb (vn b) (f_size f) then Ok (mkF (f_size f) (f_jac f) b) else Throw.
Definition zero (n : nat) : vec := mkVec n (fun _ => 0%Q).

(* BasicLinearFunction.cpp:25-41; the list is dereferenced before its size is tested *)
Definition ofMatrices (As : list mat) (xs : list cvar) (b : vec) : res blf :=
  match As with
  | [] => UB
  | A :: _ =>
      if negb (Nat.eqb (length As) (length xs)) then Throw
      else do jac <- addTerms (mr A) [] (map (fun p => mkLin (fst p) (snd p) General) (combine As xs));
           setB (mkF (mr A) jac (zero (mr A))) b
  end.
(* BasicLinearFunction.cpp:17-19 *)
Definition ofMatrices0 (As : list mat) (xs : list cvar) : res blf :=
  match As with [] => UB | A :: _ => ofMatrices As xs (zero (mr A)) end.

(* BasicLinearFunction.h:88-96 *)
Definition ofLinear (l : lin) : res blf :=
  do jac <- addTerm (mr (l_mat l)) [] l;
  setB (mkF (mr (l_mat l)) jac (zero (mr (l_mat l)))) (zero (mr (l_mat l))).

(* BasicLinearFunction.h:107-115, :116-120 (the jacobians are then zero) *)
Fixpoint preAdd (n : nat) (jac : list jent) (vs : list cvar) (simple : list bool) : res (list jent) :=
  match vs, simple with
  | x :: vs, s :: simple =>
      if negb s then
        do o <- addVariable n jac x (mkMat n (Z.to_nat (tSize (c_space x))) (fun _ _ => 0%Q)) General;
        preAdd n (match o with Some jac' => jac' | None => jac end) vs simple
      else preAdd n jac vs simple
  | x :: _, [] => UB
  | [], _ => Ok jac
  end.
(* BasicLinearFunction.h:98-132 *)
Definition ofAffine (a : aff) : res blf :=
  match a_lin a with
  | [] => UB
  | t :: _ =>
      let n := mr (l_mat t) in
      do (v, _) <- vcrun spOf base (vc_init false) (map (fun l => CAdd (l_var l)) (a_lin a));
      do (v, vars) <- variables spOf base v;
      do (v, simple) <- simple spOf base v;
      do jac <- preAdd n [] vars simple;
      do jac <- addTerms n jac (a_lin a);
      setB (mkF n jac (zero n)) (match a_cst a with None => zero n | Some b => b end)
  end.
(* The constructors that take an operand; a variable or a vector alone is not accepted *)
Definition ofOperand (p : operand) : option (res blf) :=
  match p with PLin l => Some (ofLinear l) | PAff a => Some (ofAffine a) | _ => None end.

(* BasicLinearFunction.cpp:55-64 for the i-th variable of the function; the shape is the one given by the user *)
Definition setA (f : blf) (i : nat) (A : mat) (sh : mshape) : res blf :=
  match nth_error (f_jac f) i with
  | None => Throw
  | Some j =>
      if Nat.eqb (mr A) (f_size f) && (Z.of_nat (mc A) =? vsize (j_var j))
      then Ok (mkF (f_size f) (firstn i (f_jac f) ++ mkJ (j_var j) A sh :: skipn (S i) (f_jac f)) (f_b f)) else Throw
  end.
(* BasicLinearFunction.cpp:66-72 *)
Definition setA1 (f : blf) (A : mat) (sh : mshape) : res blf :=
  if Nat.eqb (length (f_jac f)) 1 then setA f 0 A sh else Throw.

(* Variable::value() of a variable whose super-variable has the values [env k]; the value of its derivative, with the
   values [denv k] of the derivative of its super-variable *)
Definition valueOf (env : nat -> Z -> Q) (x : cvar) : vec := mkVec (Z.to_nat (vsize x)) (fun i => env (c_sup x) (start (subRange x) + Z.of_nat i)).
Definition dotValueOf (denv : nat -> Z -> Q) (x : cvar) : vec := mkVec (Z.to_nat (dim (tSubRange x))) (fun i => denv (c_sup x) (start (tSubRange x) + Z.of_nat i)).
Fixpoint accumulate (val : cvar -> vec) (acc : vec) (l : list jent) : option vec :=
  match l with
  | [] => Some acc
  | j :: l =>
      match mvmul (j_mat j) (val (j_var j)) with
      | Some w => match vadd acc w with Some acc' => accumulate val acc' l | None => None end
      | None => None
      end
  end.
(* LinearFunction.cpp:38-43 *)
Definition value (env : nat -> Z -> Q) (f : blf) : option vec := accumulate (valueOf env) (f_b f) (f_jac f).
(* LinearFunction.cpp:45-50 *)
Definition velocity (denv : nat -> Z -> Q) (f : blf) : option vec := accumulate (dotValueOf denv) (zero (f_size f)) (f_jac f).
End WithSupers.
