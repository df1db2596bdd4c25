(* Model of tvm::Range, include/tvm/Range.h:18-60.
   [int] is [Z] (no overflow). *)
Require Import ZArith Bool.
Local Open Scope Z_scope.

(* Range.h:23-24. *)
Record Range := mkRange { start : Z; dim : Z }.

(* Range.h:27 *)
Definition rend (r : Range) : Z := start r + dim r.

(* Range.h:29 operator== *)
Definition req (a b : Range) : bool := (dim a =? dim b) && (start a =? start b).

(* Range.h:34 contains(int) *)
Definition containsI (r : Range) (i : Z) : bool := (start r <=? i) && (i <? rend r).

(* Range.h:40 contains(Range) *)
Definition containsR (r o : Range) : bool := containsI r (start o) && (rend o <=? rend r).

(* Range.h:43 intersects *)
Definition intersects (r o : Range) : bool := containsI r (start o) || containsI o (start r).

(* Range.h:46,49 operator+(int), operator-(int) *)
Definition shiftR (r : Range) (i : Z) : Range := mkRange (start r + i) (dim r).

(* Range.h:55-59 relativeRange; the assertion is the caller's precondition. *)
Definition relativeRange (r o : Range) : Range := shiftR o (- start r).
