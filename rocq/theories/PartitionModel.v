(* Model of tvm::internal::VariableVectorPartition and its iterator,
   include/tvm/internal/VariableVectorPartition.h. The container and the partition
   (the result of VariableCountingVector::variables()) are lists of variables.
   An index out of a vector and a violated assert give [UB]. *)
Require Import ZArith List Bool.
Require Import Verif.Base Verif.RangeModel Verif.SpaceModel Verif.VarCountingModel.
Import ListNotations.
Local Open Scope Z_scope.

Section Base.
Variable base : nat -> bool.

(* Variable.cpp:164-170 subvariableRange: the place and size of the value in the
   super-variable's value (VariableProps.v): representation coordinates for a base
   primitive, tangent coordinates for a derivative *)
Definition subRange (v : cvar) : Range :=
  if base (c_sup v) then rRng (c_shift v) (c_space v) else tRng (c_shift v) (c_space v).
(* Variable.cpp:180-181 *)
Definition cv_contains (v w : cvar) : bool :=
  Nat.eqb (c_sup v) (c_sup w) && containsR (subRange v) (subRange w).

(* VariableVectorPartition.h:126-127 *)
Record iter := mkIter { ip : nat; iv : nat }.

(* :80-84 and :108-112: the first index, counted from [i], of an element of [l]
   contained in [v] *)
Fixpoint findIn (v : cvar) (i : nat) (l : list cvar) : option nat :=
  match l with
  | [] => None
  | w :: l' => if cv_contains v w then Some i else findIn v (S i) l'
  end.

(* :71-87 *)
Definition it_make (var p : list cvar) (i : nat) : res iter :=
  if Nat.eqb i (length p) then Ok (mkIter i i)
  else match nth_error var i with
       | None => UB
       | Some v => match findIn v 0 p with Some j => Ok (mkIter j i) | None => Throw end
       end.

(* :89-115 *)
Definition it_next (var p : list cvar) (it : iter) : res iter :=
  let ip' := S (ip it) in
  match nth_error var (iv it) with
  | None => UB
  | Some v =>
      let stay := match nth_error p ip' with Some w => cv_contains v w | None => false end in
      if stay then Ok (mkIter ip' (iv it))
      else match nth_error p (ip it) with
           | None => UB
           | Some w =>
               if negb (rend (subRange w) =? rend (subRange v)) then UB (* :98 assert *)
               else
                 let iv' := S (iv it) in
                 if Nat.eqb iv' (length var) then Ok (mkIter (length p) iv')
                 else match nth_error var iv' with
                      | None => UB
                      | Some v' =>
                          match findIn v' 0 p with Some j => Ok (mkIter j iv') | None => Throw end
                      end
           end
  end.

(* for(const auto & v : VariableVectorPartition(var, p)): :117-123, :132-133. Two
   iterators are equal when ip_ is. [fuel] bounds the number of iterations; running
   out of it is UB, shown impossible. *)
Fixpoint it_loop (fuel : nat) (var p : list cvar) (it : iter) : res (list cvar) :=
  if Nat.eqb (ip it) (length p) then Ok []
  else match fuel with
       | O => UB
       | S f =>
           match nth_error p (ip it) with
           | None => UB
           | Some w =>
               do it' <- it_next var p it;
               do l <- it_loop f var p it';
               Ok (w :: l)
           end
       end.
Definition iterate (var p : list cvar) : res (list cvar) :=
  do it <- it_make var p 0;
  it_loop (length var * length p) var p it.
End Base.
