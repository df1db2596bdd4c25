(* tvm::utils::UpdatelessFunction (include/tvm/utils/UpdatelessFunction.h, src/utils/UpdatelessFunction.cpp).  A variable
   is an object (vid) whose value is sz consecutive numbers of a memory block (Variable.cpp:203-265: the block of a
   sub-variable is that of its super-variable); its first derivative is dsz numbers of another block.  The variables of a
   VariableVector do not intersect (see C09).  Left out: the type of the arguments (VectorXd or initializer_list, a
   conversion by toVec, cpp:64-74), the argument x of jacobian and JDot (the output F is that for all variables), and the
   call graphs: executing the graph of an output recomputes it from the current values of the variables (see C18). *)
From Coq Require Import List Bool Arith QArith.
Import ListNotations.
From Verif Require Import Base.
Local Open Scope nat_scope.

Record var := mkV { vid : nat; blk : nat; off : nat; sz : nat; dblk : nat; doff : nat; dsz : nat; hasD : bool }.
Definition mem := nat -> nat -> Q.
Definition put (m : mem) (b o : nat) (v : list Q) : mem := fun b' c => if (b' =? b) && (o <=? c) && (c <? o + length v) then nth (c - o) v 0%Q else m b' c.
(* A call ends, throws (keeping what was written) or is undefined. *)
Inductive outcome := Done (m : mem) | Threw (m : mem) | Undef.
Definition next (r : outcome) (f : mem -> outcome) : outcome := match r with Done m => f m | e => e end.

(* Variable::set(x), Variable.cpp:86-92, on a variable and on its derivative. *)
Definition set (x : var) (v : list Q) (m : mem) : outcome := if length v =? sz x then Done (put m (blk x) (off x) v) else Threw m.
Definition dset (x : var) (v : list Q) (m : mem) : outcome := if length v =? dsz x then Done (put m (dblk x) (doff x) v) else Threw m.
(* assign(i, val, value), cpp:76-114. *)
Definition assignI (xs : list var) (i : nat) (v : list Q) (value : bool) (m : mem) : outcome :=
  match nth_error xs i with
  | None => Threw m
  | Some x => if value then if length v =? sz x then set x v m else Threw m
              else if length v =? dsz x then dset x v m else Threw m
  end.
(* assign(x, val, value), cpp:116-163: std::find compares the addresses. *)
Definition assignX (xs : list var) (n : nat) (v : list Q) (value : bool) (m : mem) : outcome :=
  match xs with
  | [] => Threw m
  | _ => match find (fun x => vid x =? n) xs with
         | None => Threw m
         | Some x => if value then if length v =? sz x then set x v m else Threw m
                     else if length v =? dsz x then dset x v m else Threw m
         end
  end.
(* assign(val), cpp:165-187; x[0] is read first. *)
Fixpoint setAll (xs : list var) (s : nat) (v : list Q) (m : mem) : outcome :=
  match xs with [] => Done m | x :: r => next (set x (firstn (sz x) (skipn s v)) m) (setAll r (s + sz x) v) end.
Definition assignAll (xs : list var) (v : list Q) (m : mem) : outcome :=
  match xs with
  | [] => Undef
  | x :: r => if length v =? fold_left (fun s y => s + sz y) r (sz x) then setAll xs 0 v m else Threw m
  end.
(* assign(val, vel), cpp:189-222; dx_[i] is the derivative of x[i] (58-61; no variable is added to the function later). *)
Fixpoint setAll2 (xs : list var) (sp sd : nat) (v w : list Q) (m : mem) : outcome :=
  match xs with
  | [] => Done m
  | x :: r => next (set x (firstn (sz x) (skipn sp v)) m) (fun m1 => next (dset x (firstn (dsz x) (skipn sd w)) m1) (setAll2 r (sp + sz x) (sd + dsz x) v w))
  end.
Definition assignAll2 (xs : list var) (v w : list Q) (m : mem) : outcome :=
  match xs with
  | [] => Undef
  | x :: r => if negb (length v =? fold_left (fun s y => s + sz y) r (sz x)) then Threw m
              else if negb (length w =? fold_left (fun s y => s + dsz y) r (dsz x)) then Threw m else setAll2 xs 0 0 v w m
  end.

(* parseValues, h:324-368 and cpp:224-260: the argument list is not empty. *)
Definition parseEnd (xs : list var) (i : nat) (v : list Q) (m : mem) : outcome :=
  if i + 1 =? length xs then assignI xs i v true m
  else if i <? length xs then if i =? 0 then assignAll xs v m else Threw m
  else Threw m.
Fixpoint parseVals (xs : list var) (i : nat) (v : list Q) (vs : list (list Q)) (m : mem) : outcome :=
  match vs with
  | [] => parseEnd xs i v m
  | v' :: vs' => next (assignI xs i v true m) (parseVals xs (i + 1) v' vs')
  end.
Fixpoint parsePairs (xs : list var) (ps : list (nat * list Q)) (m : mem) : outcome :=
  match ps with [] => Done m | (n, v) :: r => next (assignX xs n v true m) (parsePairs xs r) end.
(* parseValuesAndVelocities, h:370-460 and cpp:262-333. *)
Definition parseEnd2 (xs : list var) (i : nat) (v w : list Q) (m : mem) : outcome :=
  if i + 1 =? length xs then next (assignI xs i v true m) (assignI xs i w false)
  else if i <? length xs then if i =? 0 then assignAll2 xs v w m else Threw m
  else Threw m.
Fixpoint parseVals2 (xs : list var) (i : nat) (v w : list Q) (vs : list (list Q * list Q)) (m : mem) : outcome :=
  match vs with
  | [] => parseEnd2 xs i v w m
  | (v', w') :: vs' => next (assignI xs i v true m) (fun m1 => next (assignI xs i w false m1) (parseVals2 xs (i + 1) v' w' vs'))
  end.
Fixpoint parsePairs2 (xs : list var) (ps : list (nat * (list Q * list Q))) (m : mem) : outcome :=
  match ps with [] => Done m | (n, (v, w)) :: r => next (assignX xs n v true m) (fun m1 => next (assignX xs n w false m1) (parsePairs2 xs r)) end.

Inductive args := Vals (v : list Q) (vs : list (list Q)) | Pairs (p : nat * list Q) (ps : list (nat * list Q)).
Inductive args2 := Vals2 (v : list Q * list Q) (vs : list (list Q * list Q)) | Pairs2 (p : nat * (list Q * list Q)) (ps : list (nat * (list Q * list Q))).
Definition parse (xs : list var) (a : args) : mem -> outcome := match a with Vals v vs => parseVals xs 0 v vs | Pairs p ps => parsePairs xs (p :: ps) end.
Definition parse2 (xs : list var) (a : args2) : mem -> outcome := match a with Vals2 (v, w) vs => parseVals2 xs 0 v w vs | Pairs2 p ps => parsePairs2 xs (p :: ps) end.

(* The constructor, cpp:15-62: dot(x) creates the missing derivatives; creating one sets its value, hence the part of the
   derivative of the super-variable it stands for, to 0 (Variable.cpp:209-227). *)
Fixpoint construct (xs : list var) (m : mem) : mem :=
  match xs with [] => m | x :: r => construct r (if hasD x then m else put m (dblk x) (doff x) (repeat 0%Q (dsz x))) end.

(* The wrapped function: fvars its variables, enabled its outputs, out what the graph of an output computes from the
   current memory; cache what the function stores.  value, jacobian, velocity, normalAcceleration and JDot (h:222-322):
   the result is what the function stores after the execution of the graph. *)
Section Call.
  Variable O : Type.
  Variable V : Type.
  Variable eqO : O -> O -> bool.
  Record fn := mkF { fvars : list var; enabled : O -> bool; out : O -> mem -> V }.
  Record state := mkS { memory : mem; cache : O -> V }.
  Inductive answer := Returns (r : V) (s : state) | Throws (s : state) | Undefined.
  Definition execute (f : fn) (o : O) (s : state) : state := mkS (memory s) (fun o' => if eqO o' o then out f o (memory s) else cache s o').
  Definition finish (f : fn) (o : O) (c : O -> V) (r : outcome) : answer :=
    match r with
    | Done m => let s := execute f o (mkS m c) in Returns (cache s o) s
    | Threw m => Throws (mkS m c)
    | Undef => Undefined
    end.
  Definition evaluate (f : fn) (o : O) (a : args) (s : state) : answer := if enabled f o then finish f o (cache s) (parse (fvars f) a (memory s)) else Throws s.
  Definition evaluate2 (f : fn) (o : O) (a : args2) (s : state) : answer := if enabled f o then finish f o (cache s) (parse2 (fvars f) a (memory s)) else Throws s.
End Call.
Arguments mkF {O V} _ _ _. Arguments fvars {O V} _. Arguments enabled {O V} _ _. Arguments out {O V} _ _ _.
Arguments mkS {O V} _ _. Arguments memory {O V} _. Arguments cache {O V} _ _.
Arguments Returns {O V} _ _. Arguments Throws {O V} _. Arguments Undefined {O V}.
Arguments evaluate {O V} _ _ _ _ _. Arguments evaluate2 {O V} _ _ _ _ _. Arguments execute {O V} _ _ _ _. Arguments finish {O V} _ _ _ _ _.
