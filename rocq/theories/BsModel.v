(* Model of the treatment of substituted variables by the resolution schemes: Substitutions::substitute
   (src/hint/Substitutions.cpp:157-188), isBound and canBeUsedAsBound (src/scheme/helpers.cpp:18-156), the collection of the
   variables and the search for columns when a problem is processed (src/scheme/WeightedLeastSquares.cpp:113-219;
   HierarchicalLeastSquares.cpp:131 and 187 are alike), LeastSquareSolver::addBound (src/solver/LeastSquareSolver.cpp:85-94)
   and Assignment::addAssignments (src/scheme/Assignment.cpp:534-599).
   Variables are Euclidean, with elements given by numbers; the super-variables have the numbers 0, 1, ..., in the order of
   their ids.  A VariableCountingVector is the set of the elements it counts, which determines variables() when split is off:
   C11_variables. *)
From Coq Require Import List Bool Arith.
Import ListNotations.
From Verif Require Import Base MatPropModel.
Local Open Scope nat_scope.

(* super-variable and subvariableRange() *)
Record var := mkVar { v_sup : nat; v_s : nat; v_d : nat }.
Definition hasb (v : var) (k i : nat) : bool := (v_sup v =? k) && (v_s v <=? i) && (i <? v_s v + v_d v).
(* contains, intersects, Variable.cpp:180-184 and Range.h:40-43; operator== of variables *)
Definition vcontains (a b : var) : bool := hasb a (v_sup b) (v_s b) && (v_s b + v_d b <=? v_s a + v_d a).
Definition vintersects (a b : var) : bool := (v_sup a =? v_sup b) && (hasb a (v_sup b) (v_s b) || hasb b (v_sup a) (v_s a)).
Definition veq (a b : var) : bool := (v_sup a =? v_sup b) && (v_s a =? v_s b) && (v_d a =? v_d b).

(* A substituted variable (the object has the address s_id) with the variables of its function, and the properties of the
   jacobians: Substitutions::variables() and variableSubstitutions() *)
Record sub := mkSub { s_id : nat; s_var : var; s_vars : list (var * props) }.
(* A constraint: its variables with the addresses of the objects, whether it is linear in the first one, the properties of the
   jacobian for the first one, its type, its priority level, and Substitutions::uses, Substitutions.cpp:58-69 *)
Inductive btype := EQ | GE | LE | DS.
Record cst := mkC { c_vars : list (nat * var); c_linear : bool; c_prop : props; c_type : btype; c_level : nat; c_used : bool }.

(* isBound(c), helpers.cpp:18-26 *)
Definition isBound (c : cst) : bool :=
  match c_vars c with
  | [] => false
  | _ => c_linear c && (length (c_vars c) =? 1) && isDiagonal (c_prop c) && isInvertible (c_prop c)
  end.
(* isBound(c, x, xsub), helpers.cpp:31-71; isBound c tells that there is a first variable *)
Definition isBoundS (ss : list sub) (c : cst) : bool :=
  match c_vars c with
  | [] => false
  | (id, x) :: _ =>
      if isBound c then
        match find (fun s => s_id s =? id) ss with
        | None => if existsb (fun s => vintersects x (s_var s)) ss then false else true
        | Some s => match s_vars s with [(_, p)] => isDiagonal p && isInvertible p | _ => false end
        end
      else false
  end.
(* FirstOrderProvider::jacobian, FirstOrderProvider.h:192-193 and MapWithVariableAsKey.h:83-118: the properties of the jacobian
   of a function for a variable; a part of the columns has the default properties *)
Definition jacobianOf (f : list (var * props)) (v : var) : res props :=
  match find (fun e => vcontains (fst e) v) f with
  | None => Throw
  | Some (y, p) => Ok (if veq y v then p else default_props)
  end.
(* canBeUsedAsBound, helpers.cpp:78-156; x[0] in line 145 is the first of the substituted variables *)
Definition canBeUsed (ss : list sub) (c : cst) (target : btype) : res bool :=
  match c_vars c with
  | [] => Ok false
  | (id, _) :: _ =>
      if isBoundS ss c then
        let single (case1 : bool) :=
          match find (fun s => s_id s =? id) ss with
          | None => Ok (if case1 then isPositiveDefinite (c_prop c) else isNegativeDefinite (c_prop c))
          | Some s =>
              match ss with
              | [] => UB
              | s0 :: _ =>
                  do ps <- jacobianOf (s_vars s) (s_var s0) ;
                  do q <- mp_mul (c_prop c) ps ;
                  Ok (if case1 then isPositiveDefinite q else isNegativeDefinite q)
              end
          end in
        match target, c_type c with
        | EQ, _ => Ok false
        | GE, GE => single true
        | GE, LE => single false
        | LE, GE => single false
        | LE, LE => single true
        | GE, _ | LE, _ => Ok false
        | DS, _ => Ok true
        end
      else Ok false
  end.

(* ---- the variables ---- *)
Section Supers.
Variable sizeOf : nat -> nat.   (* sizes of the super-variables *)
Variable nsup : nat.
(* VariableCountingVector::variables() for the elements of P: the maximal runs, by super-variable; cur is the beginning of the
   current run *)
Definition close (k pos : nat) (cur : option nat) : list var := match cur with None => [] | Some s => [mkVar k s (pos - s)] end.
Fixpoint runsFrom (P : nat -> bool) (k pos n : nat) (cur : option nat) : list var :=
  match n with
  | O => close k pos cur
  | S n' =>
      if P pos then runsFrom P k (S pos) n' (Some (match cur with None => pos | Some s => s end))
      else close k pos cur ++ runsFrom P k (S pos) n' None
  end.
Definition counted (P : nat -> nat -> bool) : list var := flat_map (fun k => runsFrom (P k) k 0 (sizeOf k) None) (seq 0 nsup).

(* Substitutions::substitute, Substitutions.cpp:157-188 *)
Definition substitute (ss : list sub) (x : var) : res (list var) :=
  match find (fun s => vintersects (s_var s) x) ss with
  | None => Ok [x]
  | Some s =>
      if veq x (s_var s) then Ok (map fst (s_vars s))
      else if vcontains x (s_var s) then
        Ok (counted (fun k i => (hasb x k i && negb (hasb (s_var s) k i)) || existsb (fun y => hasb (fst y) k i) (s_vars s)))
      else Throw
  end.
(* memory->addVariable for the variables of the constraints that are not used by substitutions,
   WeightedLeastSquares.cpp:129-136; P: the elements there are *)
Definition addAll (l : list var) (P : nat -> nat -> bool) : nat -> nat -> bool := fun k i => P k i || existsb (fun v => hasb v k i) l.
Fixpoint gatherVars (ss : list sub) (xs : list (nat * var)) (P : nat -> nat -> bool) : res (nat -> nat -> bool) :=
  match xs with
  | [] => Ok P
  | (_, x) :: xs' => do l <- substitute ss x ; gatherVars ss xs' (addAll l P)
  end.
Fixpoint gather (ss : list sub) (cs : list cst) (P : nat -> nat -> bool) : res (nat -> nat -> bool) :=
  match cs with
  | [] => Ok P
  | c :: cs' => if c_used c then gather ss cs' P else do P' <- gatherVars ss (c_vars c) P ; gather ss cs' P'
  end.

(* ---- the columns ---- *)
(* getMappingIn, Variable.cpp:191-201, with VariableVector::getMappingOf, VariableVector.cpp:191-204: whether there is a variable
   of the solver that contains v, else an exception *)
Definition mapping (M : list var) (v : var) : res unit := if existsb (fun m => vcontains m v) M then Ok tt else Throw.
Fixpoint mappings (M : list var) (l : list var) : res unit :=
  match l with [] => Ok tt | v :: l' => do _ <- mapping M v ; mappings M l' end.
(* VariableVector::add, VariableVector.cpp:24-44 *)
Definition vvAdd (l : list var) (v : var) : res (list var) :=
  if existsb (fun x => vcontains x v) l then Ok l else if existsb (fun x => vintersects x v) l then Throw else Ok (l ++ [v]).
Fixpoint vvAddAll (l : list var) (vs : list var) : res (list var) :=
  match vs with [] => Ok l | v :: vs' => do l' <- vvAdd l v ; vvAddAll l' vs' end.

(* The partition of a variable x of the constraint by the substituted variables, Assignment.cpp:545-548: runs of elements that
   are in the same substituted variable, or in none (the variables of the constraint are disjoint, so that they do not cut each
   other). owner: the first substituted variable having the element *)
Definition owner (ss : list sub) (k i : nat) : option sub := find (fun s => hasb (s_var s) k i) ss.
Definition sameOwner (a b : option sub) : bool :=
  match a, b with None, None => true | Some s, Some t => veq (s_var s) (s_var t) | _, _ => false end.
Fixpoint partsFrom (ss : list sub) (k pos n : nat) (s : nat) (o : option sub) : list var :=
  match n with
  | O => [mkVar k s (pos - s)]
  | S n' => if sameOwner (owner ss k pos) o then partsFrom ss k (S pos) n' s o
            else mkVar k s (pos - s) :: partsFrom ss k (S pos) n' pos (owner ss k pos)
  end.
Definition parts (ss : list sub) (x : var) : list var :=
  match v_d x with
  | O => []
  | S n => partsFrom ss (v_sup x) (S (v_s x)) n (v_s x) (owner ss (v_sup x) (v_s x))
  end.
(* VariableVector::indexOf, VariableVector.cpp:178-189: the substituted variable which is the part, if it is the first one that
   contains it *)
Definition indexOf (ss : list sub) (p : var) : option sub :=
  match find (fun s => vcontains (s_var s) p) ss with Some s => if veq (s_var s) p then Some s else None | None => None end.
(* What is done for a part: replaced by the function of a substitution, or copied to its columns *)
Inductive act := Through (s : sub) | Direct (p : var).
Definition actOf (ss : list sub) (p : var) : act := match indexOf ss p with Some s => Through s | None => Direct p end.
Definition acts (ss : list sub) (c : cst) : list act := map (actOf ss) (flat_map (fun x => parts ss (snd x)) (c_vars c)).
(* substitutedInto, Assignment.cpp:557-567 *)
Definition into (a : act) : list var := match a with Through s => map fst (s_vars s) | Direct _ => [] end.
(* addAssignments, Assignment.cpp:557-598; the columns asked for in lines 568-575 are among those of lines 580-598 *)
Definition columns (a : act) : list var := match a with Through s => map fst (s_vars s) | Direct p => [p] end.
Definition assign (ss : list sub) (M : list var) (c : cst) : res (list act) :=
  let l := acts ss c in
  do _ <- vvAddAll [] (flat_map into l) ;
  do _ <- mappings M (flat_map columns l) ;
  Ok l.
(* processProblem, WeightedLeastSquares.cpp:129-168 and 186-216, for the variables and the columns: a constraint of level 0 that
   can be used as a bound for a double sided target is a bound (139-140), and is given to addBound, which asks for the columns of
   its variable; the others are assigned. extra: the variables of the additional constraints, lines 160-167, that are general
   constraints without substituted variables.  The result: the variables of the solver, and what is done of each constraint. *)
Inductive fate := ABound | AGeneral (l : list act).
Definition treat (ss : list sub) (M : list var) (c : cst) : res fate :=
  do b <- canBeUsed ss c DS ;
  if b && (c_level c =? 0) then do _ <- mappings M (map snd (firstn 1 (c_vars c))) ; Ok ABound
  else do l <- assign ss M c ; Ok (AGeneral l).
Fixpoint treatAll (ss : list sub) (M : list var) (cs : list cst) : res (list (cst * fate)) :=
  match cs with
  | [] => Ok []
  | c :: cs' => if c_used c then treatAll ss M cs' else do f <- treat ss M c ; do l <- treatAll ss M cs' ; Ok ((c, f) :: l)
  end.
Definition process (ss : list sub) (cs : list cst) (extra : list (list var)) : res (list var * list (cst * fate)) :=
  do P <- gather ss cs (fun _ _ => false) ;
  let M := counted P in
  do l <- treatAll ss M cs ;
  do _ <- mappings M (concat extra) ;
  Ok (M, l).
End Supers.
