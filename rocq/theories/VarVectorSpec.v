(* Specification vocabulary for VariableVector: variables as sets of scalar cells
   (supervariable, index). *)
Require Import ZArith List Bool.
Require Import Verif.RangeModel Verif.RangeCountingModel Verif.RangeCountingSpec Verif.VarVectorModel.
Import ListNotations.
Local Open Scope Z_scope.

Section Vars.
Variable V : nat -> vslice.

(* The scalar (a, i) belongs to the variable. *)
Definition scalar (v : nat) (c : nat * Z) : Prop := fst c = sup (V v) /\ In_range (rng (V v)) (snd c).
Definition inside (v x : nat) : Prop := forall c, scalar v c -> scalar x c.
Definition same (v x : nat) : Prop := forall c, scalar v c <-> scalar x c.
Definition overlap (v x : nat) : Prop := exists c, scalar v c /\ scalar x c.

Fixpoint total (l : list nat) : Z := match l with [] => 0 | x :: r => vsize (V x) + total r end.
(* pairwise disjoint *)
Fixpoint disjoint (l : list nat) : Prop :=
  match l with [] => True | x :: r => (forall y, In y r -> ~ overlap x y) /\ disjoint r end.
(* [r] is where the values of [v] are in the concatenation of the values of [l]. *)
Definition position (l : list nat) (v : nat) (r : Range) : Prop :=
  exists l1 x l2, l = l1 ++ x :: l2 /\ inside v x /\
    r = mkRange (total l1 + (start (rng (V v)) - start (rng (V x)))) (vsize (V v)).

(* Adding the variables of a list one after the other to [l0] gives [l1]; [b]: stopped at a variable which overlaps
   another without being part of it. *)
Inductive adds : list nat -> list nat -> list nat -> bool -> Prop :=
| adds_end : forall l0, adds l0 [] l0 false
| adds_skip : forall l0 v r l1 b, (exists x, In x l0 /\ inside v x) -> adds l0 r l1 b -> adds l0 (v :: r) l1 b
| adds_new : forall l0 v r l1 b, (forall x, In x l0 -> ~ overlap x v) -> adds (l0 ++ [v]) r l1 b -> adds l0 (v :: r) l1 b
| adds_stop : forall l0 v r, (forall x, In x l0 -> ~ inside v x) -> (exists x, In x l0 /\ overlap x v) ->
    adds l0 (v :: r) l0 true.

(* Calls on vectors that exist; a moved-from vector (id -1) may only be destroyed, be the
   target of a move assignment, or be read; no self-move. *)
Definition live (w : world) (k : nat) : Prop := exists c, getV w k = Some c.
Definition usable (w : world) (k : nat) : Prop := exists c, getV w k = Some c /\ vid c <> -1.
Definition valid_vvop (w : world) (o : vvop) : Prop :=
  match o with
  | ONew _ => True
  | OCopy k | OMove k | ODestroy k => live w k
  | OAssign k k' => usable w k /\ live w k' /\ k <> k'
  | OMoveAssign k k' => live w k /\ live w k' /\ k <> k'
  | OAddVec k k' => usable w k /\ live w k'
  | OAdd k _ | OAddL k _ | OAddIdx k _ _ | ORemove k _ | ORemoveI k _ | OClear k | OMapIn _ k | OMapOf k _ => usable w k
  end.
Inductive reach : world -> Prop :=
| reach0 : reach empty_world
| reachS : forall w o, reach w -> valid_vvop w o -> reach (fst (vvstep V w o)).
End Vars.
