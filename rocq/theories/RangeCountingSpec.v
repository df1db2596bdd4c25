(* Specification of range counting: plain multiplicities of integers. *)
Require Import ZArith List Bool Sorting.
Require Import Verif.RangeModel Verif.RangeCountingModel.
Import ListNotations.
Local Open Scope Z_scope.

(* The integers of a range. *)
Definition In_range (r : Range) (x : Z) : Prop := start r <= x < start r + dim r.
Definition ints (r : Range) : list Z :=
  map (fun n => start r + Z.of_nat n) (seq 0 (Z.to_nat (dim r))).
Definition ind (r : Range) (x : Z) : Z :=
  if (start r <=? x) && (x <? start r + dim r) then 1 else 0.

(* What the calls of a history leave counted. A remove is effective only if every
   integer of its range is counted. *)
Definition effective (c : Z -> Z) (r : Range) : bool := forallb (fun x => 1 <=? c x) (ints r).
Definition spec_step (c : Z -> Z) (o : op) : Z -> Z :=
  match o with
  | OAdd r => fun x => c x + ind r x
  | ORemove r => if effective c r then fun x => c x - ind r x else c
  | _ => c
  end.
Fixpoint spec_from (c : Z -> Z) (h : list op) : Z -> Z :=
  match h with [] => c | o :: h' => spec_from (spec_step c o) h' end.
Definition spec_count (h : list op) : Z -> Z := spec_from (fun _ => 0) h.

(* Range's constructor requires a non-negative dimension (Range.h:22). *)
Definition valid_op (o : op) : Prop :=
  match o with OAdd r | ORemove r => 0 <= dim r | _ => True end.

(* [l] lists, in increasing order, the maximal intervals of the set [P]. *)
Definition canonical (l : list Range) (P : Z -> Prop) : Prop :=
  Forall (fun r => 0 < dim r) l /\
  StronglySorted (fun a b => rend a < start b) l /\
  forall x, P x <-> exists r, In r l /\ In_range r x.

(* [l] lists, in increasing order, non-empty disjoint intervals with union [P]. *)
Definition pieces (l : list Range) (P : Z -> Prop) : Prop :=
  Forall (fun r => 0 < dim r) l /\
  StronglySorted (fun a b => rend a <= start b) l /\
  forall x, P x <-> exists r, In r l /\ In_range r x.
