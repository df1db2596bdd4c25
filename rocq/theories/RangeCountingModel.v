(* Model of tvm::internal::RangeCounting,
   src/internal/RangeCounting.cpp and include/tvm/internal/RangeCounting.h.
   std::list<Limit> is a [list]; an iterator is a split of that list in the part
   before it and the part starting at it. [int] is [Z]. A violated assert and a
   dereferenced end() give [UB]. *)
Require Import ZArith List Bool.
Require Import Verif.Base Verif.RangeModel.
Import ListNotations.
Local Open Scope Z_scope.

(* RangeCounting.h:60-65 *)
Inductive ltype := Lower | Cut | Upper.
Definition tval (t : ltype) : Z := match t with Lower => -1 | Cut => 0 | Upper => 1 end.

(* RangeCounting.h:58-70 *)
Notation lim := (Z * ltype)%type.

Definition teq (a b : ltype) : bool := tval a =? tval b.
(* RangeCounting.h:72 *)
Definition lim_eq (a b : lim) : bool := (fst a =? fst b) && teq (snd a) (snd b).
(* RangeCounting.h:74 *)
Definition lim_le (a b : lim) : bool :=
  (fst a <? fst b) || ((fst a =? fst b) && (tval (snd a) <=? tval (snd b))).
(* RangeCounting.h:73, 75 *)
Definition lim_lt (a b : lim) : bool :=
  (fst a <? fst b) || ((fst a =? fst b) && (tval (snd a) <? tval (snd b))).

(* RangeCounting.h:137-140 *)
Record rc := mkRC {
  limits : list lim;
  recompute_ : bool;
  recomputeSplit_ : bool;
  intervals_ : list Range }.

Definition rc_init : rc := mkRC [] false false [].

(* RangeCounting.cpp:170-183 moveToFirstAfter: [l] is the list from [it] on; the
   result holds the hit flag, the elements passed, the list from the new [it] and
   the new depth. *)
Fixpoint move (val : lim) (cut depth : Z) (l : list lim)
  : res (bool * list lim * list lim * Z) :=
  match l with
  | [] => Ok (false, [], [], depth)
  | x :: r =>
      if lim_le x val then
        let d := depth - tval (snd x) in
        if d <? cut then Throw
        else match move val cut d r with
             | Ok (h, m, p, d') => Ok ((d =? cut) || h, x :: m, p, d')
             | Throw => Throw
             | UB => UB
             end
      else Ok (false, [], l, depth)
  end.

(* RangeCounting.cpp:187-226 insert, val.type_ = Lower: [pre] is the list before
   [it], [post] the list from [it] on; returns the same for the updated [it] and
   the new depth. *)
Definition insertLower (i : Z) (pre post : list lim) (depth : Z)
  : res (list lim * list lim * Z) :=
  match post with
  | [] => UB                                   (* :189 dereferences end() *)
  | (j, t) :: rest =>
      if i =? j then
        match t with
        | Lower => UB                          (* :191 assert *)
        | Cut =>
            match rest with
            | n :: rest' =>
                if lim_eq n (i, Upper) then    (* :194-200 *)
                  Ok (if depth =? 0 then pre else pre ++ [(j, Cut)], rest', depth)
                else Ok (pre ++ [(i, Lower)], post, depth + 1) (* :204-205 *)
            | [] => Ok (pre ++ [(i, Lower)], post, depth + 1)
            end
        | Upper =>                             (* :211-217 *)
            if depth =? 0 then Ok (pre, rest, depth)
            else Ok (pre ++ [(j, Cut)], rest, depth)
        end
      else Ok (pre ++ [(i, Lower)], post, depth + 1) (* :223-224 *)
  end.

(* RangeCounting.cpp:227-268 insert, val.type_ = Upper: only elements before [it]
   are touched, so only [pre] is returned (with the new depth). *)
Definition insertUpper (i : Z) (pre : list lim) (depth : Z) : res (list lim * Z) :=
  match rev pre with
  | [] => UB                                   (* :230 assert *)
  | p :: pr =>
      if lim_eq p (i, Upper) then UB           (* :232 assert *)
      else if i =? fst p then
        match snd p with
        | Cut =>
            match pr with
            | q :: pr' =>
                if lim_eq q (i, Lower) then    (* :237-243 *)
                  Ok (if depth =? 0 then rev pr' else rev pr' ++ [p], depth - 1)
                else Ok (pre ++ [(i, Upper)], depth - 1) (* :248-249 *)
            | [] => Ok (pre ++ [(i, Upper)], depth - 1)
            end
        | _ =>                                 (* :255-259 *)
            if depth =? 1 then Ok (rev pr, depth - 1)
            else Ok (rev pr ++ [(fst p, Cut)], depth - 1)
        end
      else Ok (pre ++ [(i, Upper)], depth - 1) (* :265-266 *)
  end.

(* RangeCounting.cpp:271-275 recompute, with the assignment of limits_ done by the
   caller. Both add and remove set recomputeSplit_ before (:11, :54). *)
Definition recompute (s : rc) (l : list lim) (change : bool) : rc * bool :=
  (mkRC l (recompute_ s || change) true (intervals_ s), change).

(* RangeCounting.cpp:5-40 add. The assertion isValid() is not modelled here: it is
   proved separately (rc_isValid). *)
Definition add (s : rc) (r : Range) : res (rc * bool) :=
  if dim r =? 0 then Ok (s, false)
  else match limits s with
  | [] => Ok (recompute s [(start r, Lower); (rend r, Upper)] true)
  | l =>
      do (_, pre, post, depth) <- move (start r, Lower) 0 0 l;
      match post with
      | [] => Ok (recompute s (pre ++ [(start r, Lower); (rend r, Upper)]) true)
      | _ =>
          do (pre1, post1, depth1) <- insertLower (start r) pre post depth;
          do (hit, mid, post2, depth2) <- move (rend r, Cut) 1 depth1 post1;
          do (pre2, _) <- insertUpper (rend r) (pre1 ++ mid) depth2;
          Ok (recompute s (pre2 ++ post2) (hit || (depth1 =? 1)))
      end
  end.

(* RangeCounting.cpp:75-85: erase the cuts at depth 0. *)
Fixpoint scan (depth : Z) (l : list lim) : list lim :=
  match l with
  | [] => []
  | x :: r =>
      let d := depth - tval (snd x) in
      if (d =? 0) && teq (snd x) Cut then scan d r else x :: scan d r
  end.

(* RangeCounting.cpp:42-88 remove. An exception leaves [limits_] untouched but may
   have set recomputeSplit_ (:54): [removeFail] is the state after an exception. *)
Definition remove (s : rc) (r : Range) : res (rc * bool) :=
  if dim r =? 0 then Ok (s, false)
  else match limits s with
  | [] => Throw                                                (* :49 *)
  | (f :: _) as l =>
      let b := last l f in
      if (start r <? fst f) || (fst b <=? start r) || (rend r <=? fst f) || (fst b <? rend r)
      then Throw                                               (* :50-52 *)
      else
        do (_, pre, post, depth) <- move (start r, Cut) 0 0 l;
        if depth =? 0 then Throw                               (* :61-62 *)
        else
          do (hit, mid, post2, depth2) <- move (rend r, Lower) 1 depth post;
          do (pre1, _) <- insertUpper (start r) pre depth;
          do (pre2, post3, _) <- insertLower (rend r) (pre1 ++ mid) post2 (depth2 - 1);
          Ok (recompute s (scan 0 (pre2 ++ post3)) (hit || (depth =? 1)))
  end.

Definition removeFail (s : rc) (r : Range) : rc :=
  match limits s with
  | [] => s
  | (f :: _) as l =>
      let b := last l f in
      if (start r <? fst f) || (fst b <=? start r) || (rend r <=? fst f) || (fst b <? rend r)
      then s
      else mkRC l (recompute_ s) true (intervals_ s)
  end.

(* RangeCounting.cpp:107-114 next: skip all elements equal to the first one. *)
Fixpoint skipEq (v : lim) (depth : Z) (l : list lim) : Z * list lim :=
  match l with
  | [] => (depth, [])
  | x :: r => if lim_eq x v then skipEq v (depth - tval (snd x)) r else (depth, l)
  end.

Definition next (depth : Z) (l : list lim) : Z * list lim :=
  match l with [] => (depth, []) | x :: _ => skipEq x depth l end.

(* RangeCounting.cpp:118-132, the while loop of ranges(true); [fuel] bounds the
   number of iterations (running out is UB, shown impossible). *)
Fixpoint splitLoop (fuel : nat) (depth : Z) (s : lim) (it : list lim) (acc : list Range)
  : res (list Range) :=
  match it with
  | [] => Ok acc
  | x :: _ =>
      match fuel with
      | O => UB
      | S fuel' =>
          let cont acc' :=
            let (d, it1) := next depth it in
            match it1 with
            | y :: _ =>
                if d =? 0 then let (d', it2) := next d it1 in splitLoop fuel' d' y it2 acc'
                else splitLoop fuel' d x it1 acc'
            | [] => splitLoop fuel' d x it1 acc'
            end in
          if negb (fst s =? fst x) then
            if fst x - fst s <? 0 then UB (* Range.h:22 assert *)
            else cont (acc ++ [mkRange (fst s) (fst x - fst s)])
          else if (teq (snd s) Lower && teq (snd x) Cut) || (teq (snd s) Cut && teq (snd x) Upper)
               then cont acc
               else UB                                         (* :123 assert *)
      end
  end.

(* RangeCounting.cpp:138-147, the loop of ranges(false). [s] is None when it is end(). *)
Fixpoint flatLoop (depth : Z) (s : option lim) (l : list lim) (acc : list Range)
  : res (list Range) :=
  match l with
  | [] => Ok acc
  | x :: r =>
      let d := depth - tval (snd x) in
      if d =? 0 then
        match s with
        | None => UB
        | Some s0 =>
            if fst x - fst s0 <? 0 then UB
            else flatLoop d (hd_error r) r (acc ++ [mkRange (fst s0) (fst x - fst s0)])
        end
      else flatLoop d s r acc
  end.

(* RangeCounting.cpp:90-153 ranges *)
Definition ranges (s : rc) (split : bool) : res (rc * list Range) :=
  if negb (recompute_ s) && negb (recomputeSplit_ s) then Ok (s, intervals_ s)
  else match limits s with
  | [] => Ok (mkRC [] false false [], [])
  | (x :: _) as l =>
      if split then
        let (d, it) := next 0 l in
        do iv <- splitLoop (length l) d x it [];
        Ok (mkRC l true false iv, iv)
      else
        do iv <- flatLoop 0 (hd_error l) l [];
        Ok (mkRC l false true iv, iv)
  end.

(* RangeCounting.cpp:157-168 maxCount *)
Fixpoint maxLoop (depth mx : Z) (l : list lim) : Z :=
  match l with
  | [] => mx
  | x :: r => let d := depth - tval (snd x) in maxLoop d (if mx <? d then d else mx) r
  end.
Definition maxCount (s : rc) : Z := maxLoop 0 0 (limits s).

(* RangeCounting.cpp:277-315 isValid, rules (1)-(4) on consecutive elements. *)
Definition bad2 (a b : lim) : bool :=
  lim_lt b a || (lim_eq a b && teq (snd a) Cut)
  || ((fst a =? fst b) && teq (snd a) Lower && teq (snd b) Upper).
Definition bad3 (a b c : lim) : bool :=
  (fst a =? fst b) && (fst a =? fst c) && teq (snd a) Lower && teq (snd b) Cut && teq (snd c) Upper.
(* :294-303, and it2 is the last element when the loop stops *)
Fixpoint validLoop (a b : lim) (l : list lim) : bool :=
  match l with
  | [] => teq (snd b) Upper
  | c :: r => negb (bad2 b c) && negb (bad3 a b c) && validLoop b c r
  end.
(* :307-313 *)
Fixpoint validDepth (depth : Z) (l : list lim) : bool :=
  match l with
  | [] => true
  | x :: r => negb (teq (snd x) Cut && (depth =? 0)) && validDepth (depth - tval (snd x)) r
  end.
Definition isValid (s : rc) : bool :=
  match limits s with
  | [] => true
  | [_] => false
  | [a; b] => teq (snd a) Lower && lim_lt a b && teq (snd b) Upper
  | a :: b :: l => teq (snd a) Lower && negb (bad2 a b) && validLoop a b l && validDepth 0 (limits s)
  end.

(* A history of calls. *)
Inductive op := OAdd (r : Range) | ORemove (r : Range) | ORanges (split : bool) | OMax.
Inductive out := OutBool (b : bool) | OutThrow | OutRanges (l : list Range) | OutMax (n : Z).

Definition step (s : rc) (o : op) : res (rc * out) :=
  match o with
  | OAdd r => do (s', b) <- add s r; Ok (s', OutBool b)
  | ORemove r =>
      match remove s r with
      | Ok (s', b) => Ok (s', OutBool b)
      | Throw => Ok (removeFail s r, OutThrow)
      | UB => UB
      end
  | ORanges b => do (s', l) <- ranges s b; Ok (s', OutRanges l)
  | OMax => Ok (s, OutMax (maxCount s))
  end.

Fixpoint run (s : rc) (h : list op) : res (rc * list out) :=
  match h with
  | [] => Ok (s, [])
  | o :: h' =>
      do (s', x) <- step s o;
      do (s'', xs) <- run s' h';
      Ok (s'', x :: xs)
  end.
