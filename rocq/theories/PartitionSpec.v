(* Specification of partition traversals. *)
Require Import ZArith List.
Require Import Verif.RangeModel Verif.RangeCountingSpec Verif.VarCountingModel Verif.VarCountingSpec.
Import ListNotations.
Local Open Scope Z_scope.

(* The parts [ps] split the atoms [q] of super-variable [k]: they cover [q] and none
   lies across its border. *)
Definition compatible (ps : list (nat * Range)) (k : nat) (q : Range) : Prop :=
  0 < dim q /\ (forall x, In_range q x -> exists p, In (k, p) ps /\ In_range p x) /\
  (forall p, In (k, p) ps -> (forall x, In_range p x -> In_range q x) \/ (forall x, In_range p x -> ~ In_range q x)).

(* [seg] cuts [v], made of the atoms [q], into consecutive parts. *)
Definition parted (L : layout) (v : cvar) (q : Range) (seg : list cvar) : Prop :=
  exists rs, Forall2 (fun w r => c_sup w = c_sup v /\ made_of L w r) seg rs /\ pieces rs (In_range q).
