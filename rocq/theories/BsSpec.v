(* Spec for C72: what the solver should work on when variables are substituted. *)
From Coq Require Import List Bool Arith.
Import ListNotations.
From Verif Require Import Base MatPropModel BsModel.
Local Open Scope nat_scope.

(* v has the element i of the super-variable k; two variables have an element in common; one is a part of the other *)
Definition has (v : var) (k i : nat) : Prop := v_sup v = k /\ v_s v <= i < v_s v + v_d v.
Definition meets (a b : var) : Prop := exists k i, has a k i /\ has b k i.
Definition within (a b : var) : Prop := forall k i, has a k i -> has b k i.
Definition replaced (ss : list sub) (k i : nat) : Prop := exists s, In s ss /\ has (s_var s) k i.

Section Sizes.
Variable sizeOf : nat -> nat.
Variable nsup : nat.
Definition realVar (v : var) : Prop := 0 < v_d v /\ v_sup v < nsup /\ v_s v + v_d v <= sizeOf (v_sup v).
(* the substitutions: the substituted variables are disjoint and different objects, they are not replaced by variables that are
   themselves replaced *)
Definition sane (ss : list sub) : Prop :=
  (forall s, In s ss -> realVar (s_var s) /\ (forall y p, In (y, p) (s_vars s) -> realVar y)) /\
  (forall s t, In s ss -> In t ss -> meets (s_var s) (s_var t) -> s = t) /\
  (forall s t, In s ss -> In t ss -> s_id s = s_id t -> s = t) /\
  (forall s y p k i, In s ss -> In (y, p) (s_vars s) -> has y k i -> ~ replaced ss k i).
End Sizes.
(* the variables of the functions have matrices that are not declared diagonal, as those set by SubstitutionUnit::update *)
Definition plainMatrices (ss : list sub) : Prop := forall s y p, In s ss -> In (y, p) (s_vars s) -> isDiagonal p = false.

(* x is a variable of a constraint to be solved *)
Definition asked (cs : list cst) (x : var) : Prop := exists c id, In c cs /\ c_used c = false /\ In (id, x) (c_vars c).
(* what should be solved for: the elements that are not replaced, and the elements of the variables of the substitutions met *)
Definition needed (ss : list sub) (cs : list cst) (k i : nat) : Prop :=
  exists x, asked cs x /\
    ((has x k i /\ ~ replaced ss k i) \/
     (exists s y p, In s ss /\ meets (s_var s) x /\ In (y, p) (s_vars s) /\ has y k i)).
(* what is solved for: only the first substituted variable that x meets counts *)
Definition firstMet (ss : list sub) (x : var) (s : sub) : Prop :=
  exists l r, ss = l ++ s :: r /\ meets (s_var s) x /\ (forall t, In t l -> ~ meets (s_var t) x).
Definition collected (ss : list sub) (cs : list cst) (k i : nat) : Prop :=
  exists x, asked cs x /\
    (((forall s, In s ss -> ~ meets (s_var s) x) /\ has x k i) \/
     (exists s, firstMet ss x s /\
        ((has x k i /\ ~ has (s_var s) k i) \/ (exists y p, In (y, p) (s_vars s) /\ has y k i)))).
(* the substituted variables are not finer nor coarser than needed: each is a part of x or has nothing of it *)
Definition granular (ss : list sub) (x : var) : Prop := forall s, In s ss -> meets (s_var s) x -> within (s_var s) x.
(* x meets one substituted variable at most *)
Definition single (ss : list sub) (x : var) : Prop :=
  forall s t, In s ss -> In t ss -> meets (s_var s) x -> meets (s_var t) x -> s = t.
(* the variables of the functions of the substitutions met by a constraint are the same or disjoint *)
Definition aligned (ss : list sub) (c : cst) : Prop :=
  forall s t id x id' x' y p z q, In s ss -> In t ss -> In (id, x) (c_vars c) -> In (id', x') (c_vars c) ->
    meets (s_var s) x -> meets (s_var t) x' -> In (y, p) (s_vars s) -> In (z, q) (s_vars t) -> meets y z -> y = z.

(* the constraint c is rewritten properly: all the elements of its variables are treated, the replaced ones by the function of
   their substitution, and the others as they are *)
Definition rewritten (ss : list sub) (c : cst) (l : list act) : Prop :=
  (forall id x k i, In (id, x) (c_vars c) -> has x k i ->
     (exists s, In s ss /\ has (s_var s) k i /\ In (Through s) l) \/
     (~ replaced ss k i /\ exists p, In (Direct p) l /\ has p k i)) /\
  (forall s, In (Through s) l -> In s ss /\ exists id x, In (id, x) (c_vars c) /\ within (s_var s) x) /\
  (forall p, In (Direct p) l -> (exists id x, In (id, x) (c_vars c) /\ within p x) /\ forall k i, has p k i -> ~ replaced ss k i).
(* the solver has the columns of a variable *)
Definition inColumns (M : list var) (v : var) : Prop := exists m, In m M /\ within v m.

(* c is a bound on x, apart from substitutions *)
Definition simple (c : cst) (id : nat) (x : var) : Prop :=
  c_vars c = [(id, x)] /\ c_linear c = true /\ isDiagonal (c_prop c) = true /\ isInvertible (c_prop c) = true.
(* the types of bounds with one side *)
Definition oneSided (t : btype) : bool := match t with GE | LE => true | _ => false end.
(* a constraint with which the schemes succeed *)
Definition good (ss : list sub) (c : cst) : Prop :=
  (forall id x, In (id, x) (c_vars c) -> single ss x /\ granular ss x) /\ aligned ss c.
