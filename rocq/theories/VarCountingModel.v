(* Model of tvm::internal::VariableCountingVector,
   src/internal/VariableCountingVector.cpp and include/tvm/internal/VariableCountingVector.h.
   A variable is its super-variable's number, its spaceShift() and its space()
   (Variable.h). std::map<Variable*, ...> is ordered by the objects' ids
   (utils/internal/map.h), so super-variables are numbered by their ids and count_
   is a list sorted by that number. What a super-variable is, is given by [spOf]
   (its space) and [base] (isBasePrimitive()). size_t is Z. The variables_ vector is the
   list of the variables added to it; VariableVector::add itself is modelled in
   VarVectorModel.v. *)
Require Import ZArith List Bool.
Require Import Verif.Base Verif.RangeModel Verif.RangeCountingModel Verif.SpaceModel.
Import ListNotations.
Local Open Scope Z_scope.

Record cvar := mkCV { c_sup : nat; c_shift : space; c_space : space }.

(* VariableCountingVector.h:74-84 *)
Record src := mkSrc { mC : rc; rC : rc; tC : rc }.
Definition src_init : src := mkSrc rc_init rc_init rc_init.

Definition mRng (st d : space) : Range := mkRange (mSize st) (mSize d).
Definition rRng (st d : space) : Range := mkRange (rSize st) (rSize d).
Definition tRng (st d : space) : Range := mkRange (tSize st) (tSize d).

(* VariableCountingVector.cpp:141-146 *)
Definition src_add (c : src) (st d : space) : res (src * bool) :=
  do (r', _) <- add (rC c) (rRng st d);
  do (t', _) <- add (tC c) (tRng st d);
  do (m', b) <- add (mC c) (mRng st d);
  Ok (mkSrc m' r' t', b).

(* VariableCountingVector.cpp:148-153. [None] is an exception; the state it leaves is
   returned with it. *)
Definition src_remove (c : src) (st d : space) : res (src * option bool) :=
  match remove (rC c) (rRng st d) with
  | UB => UB
  | Throw => Ok (mkSrc (mC c) (removeFail (rC c) (rRng st d)) (tC c), None)
  | Ok (r', _) =>
      match remove (tC c) (tRng st d) with
      | UB => UB
      | Throw => Ok (mkSrc (mC c) r' (removeFail (tC c) (tRng st d)), None)
      | Ok (t', _) =>
          match remove (mC c) (mRng st d) with
          | UB => UB
          | Throw => Ok (mkSrc (removeFail (mC c) (mRng st d)) r' t', None)
          | Ok (m', b) => Ok (mkSrc m' r' t', Some b)
          end
      end
  end.

(* VariableCountingVector.h:82-83; RangeCounting.h empty() *)
Definition src_empty (c : src) : bool := match limits (mC c) with [] => true | _ => false end.
Definition src_max (c : src) : Z := maxCount (mC c).

(* VariableCountingVector.h:88-92 *)
Definition entry := (nat * (src * Z))%type.
Record vc := mkVC {
  split_ : bool;
  count_ : list entry;
  upToDate_ : bool;
  variables_ : list cvar;
  simple_ : list bool }.
(* VariableCountingVector.h:40 *)
Definition vc_init (split : bool) : vc := mkVC split [] false [] [].

(* std::map::insert / lookup / write on a list sorted by key *)
Fixpoint lookup (k : nat) (l : list entry) : option (src * Z) :=
  match l with
  | [] => None
  | (j, v) :: r => if Nat.eqb j k then Some v else lookup k r
  end.
Fixpoint store (k : nat) (v : src * Z) (l : list entry) : list entry :=
  match l with
  | [] => [(k, v)]
  | (j, w) :: r =>
      if Nat.eqb j k then (k, v) :: r
      else if Nat.ltb k j then (k, v) :: l
      else (j, w) :: store k v r
  end.

(* VariableCountingVector.cpp:11-23 *)
Definition vc_add (s : vc) (v : cvar) : res (vc * bool) :=
  let '(c, n) := match lookup (c_sup v) (count_ s) with Some p => p | None => (src_init, 0) end in
  do (c', change) <- src_add c (c_shift v) (c_space v);
  Ok (mkVC (split_ s) (store (c_sup v) (c', if change then n + 1 else n) (count_ s))
           (upToDate_ s && negb change) (variables_ s) (simple_ s), change).

(* VariableCountingVector.cpp:31-53; [None] is an exception *)
Definition vc_remove (s : vc) (v : cvar) : res (vc * option bool) :=
  match lookup (c_sup v) (count_ s) with
  | None => Ok (s, None)                             (* :36 at() throws *)
  | Some (c, n) =>
      do (c', o) <- src_remove c (c_shift v) (c_space v);
      match o with
      | None => Ok (mkVC (split_ s) (store (c_sup v) (c', n) (count_ s)) (upToDate_ s)
                         (variables_ s) (simple_ s), None)
      | Some change =>
          let n' := if change then (if src_empty c' then 0 else n + 10) else n in
          Ok (mkVC (split_ s) (store (c_sup v) (c', n') (count_ s))
                   (upToDate_ s && negb change) (variables_ s) (simple_ s), Some change)
      end
  end.

(* VariableCountingVector.cpp:61-65 *)
Definition vc_clear (s : vc) : vc := mkVC (split_ s) [] false (variables_ s) (simple_ s).

(* VariableCountingVector.cpp:87-95 *)
Definition isDisjointUnion (s : vc) : bool :=
  forallb (fun e : entry => negb (1 <? src_max (fst (snd e)))) (count_ s).

Section WithSupers.
Variables (spOf : nat -> space) (base : nat -> bool).

(* Variable.h size(): the size of the representation for a base primitive, of the
   tangent space for a derivative *)
Definition sizeOf (k : nat) : Z := if base k then rSize (spOf k) else tSize (spOf k).

(* Variable.cpp:229-237 subvariable: rejects a part that does not fit *)
Definition subv (k : nat) (sp sh : space) : res cvar :=
  do q <- space_mul sp sh;
  if space_le q (spOf k) then Ok (mkCV k sh sp) else Throw.

(* VariableCountingVector.cpp:127-134 *)
Fixpoint subLoop (k : nat) (ml rl tl : list Range) : res (list cvar) :=
  match ml, rl, tl with
  | m :: ml', r :: rl', t :: tl' =>
      do sp <- space3 (dim m) (dim r) (dim t);
      do sh <- space3 (start m) (start r) (start t);
      do v <- subv k sp sh;
      do vs <- subLoop k ml' rl' tl';
      Ok (v :: vs)
  | _, _, _ => Ok []
  end.

(* VariableCountingVector.cpp:105-136: the new counters (RangeCounting::ranges writes
   its cache) and the variables of one super-variable *)
Definition entryVars (k : nat) (c : src) (split : bool) : res (src * list cvar) :=
  do (m', ml) <- ranges (mC c) split;
  do (r', rl) <- ranges (rC c) split;
  do (t', tl) <- ranges (tC c) split;
  let c' := mkSrc m' r' t' in
  if negb (Nat.eqb (length ml) (length rl) && Nat.eqb (length ml) (length tl)) then UB (* :108 assert *)
  else
    match ml, rl, tl with
    | [], _, _ => Ok (c', [])
    | [m], [r], [t] =>
        if (base k && (dim r =? sizeOf k)) || (negb (base k) && (dim t =? sizeOf k)) then
          if start m =? 0 then Ok (c', [mkCV k (mkSpace 0 0 0 Euclidean) (spOf k)]) else UB (* :121 *)
        else do vs <- subLoop k ml rl tl; Ok (c', vs)
    | _, _, _ => do vs <- subLoop k ml rl tl; Ok (c', vs)
    end.

Fixpoint updLoop (split : bool) (l : list entry) : res (list entry * list cvar * list bool) :=
  match l with
  | [] => Ok ([], [], [])
  | (k, (c, n)) :: l' =>
      do (c', vs) <- entryVars k c split;
      do (es, ws, ss) <- updLoop split l';
      (* :116 second == mRanges.size(); one variable is pushed per range *)
      Ok ((k, (c', n)) :: es, vs ++ ws,
          map (fun _ => n =? Z.of_nat (length vs)) vs ++ ss)
  end.

(* VariableCountingVector.cpp:97-140 *)
Definition update (s : vc) : res vc :=
  if upToDate_ s then Ok s
  else
    do (es, vs, ss) <- updLoop (split_ s) (count_ s);
    Ok (mkVC (split_ s) es true vs ss).

(* VariableCountingVector.cpp:73-77 *)
Definition variables (s : vc) : res (vc * list cvar) :=
  do s' <- update s; Ok (s', variables_ s').
(* VariableCountingVector.cpp:79-85 *)
Definition simple (s : vc) : res (vc * list bool) :=
  if split_ s then Throw else do s' <- update s; Ok (s', simple_ s').

(* A history of calls. add/remove of a VariableVector (:25-29, :55-59) are sequences
   of these. *)
Inductive vcop := CAdd (v : cvar) | CRemove (v : cvar) | CClear | CVariables.
Inductive vcout := CBool (b : bool) | CThrow | CUnit | CVars (l : list cvar).
Definition vcstep (s : vc) (o : vcop) : res (vc * vcout) :=
  match o with
  | CAdd v => do (s', b) <- vc_add s v; Ok (s', CBool b)
  | CRemove v =>
      do (s', o) <- vc_remove s v;
      Ok (s', match o with Some b => CBool b | None => CThrow end)
  | CClear => Ok (vc_clear s, CUnit)
  | CVariables => do (s', l) <- variables s; Ok (s', CVars l)
  end.
Fixpoint vcrun (s : vc) (h : list vcop) : res (vc * list vcout) :=
  match h with
  | [] => Ok (s, [])
  | o :: h' =>
      do (s', x) <- vcstep s o;
      do (s'', xs) <- vcrun s' h';
      Ok (s'', x :: xs)
  end.
End WithSupers.
