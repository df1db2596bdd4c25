(* Specification of variable counting: multiplicities of the atoms of each variable. *)
Require Import ZArith List Bool Sorting.
Require Import Verif.RangeModel Verif.RangeCountingSpec Verif.SpaceModel Verif.VarCountingModel.
Import ListNotations.
Local Open Scope Z_scope.

(* A variable is made of indivisible parts (for a Euclidean space one per
   coordinate; an SO3 part is one atom, with 3, 4 and 3 coordinates in its manifold,
   representation and tangent space). [om k a] (resp. [or], [ot]) is the coordinate
   at which atom [a] of super-variable [k] begins; there are [natoms k] of them. *)
Record layout := mkLayout {
  om : nat -> Z -> Z; or_ : nat -> Z -> Z; ot : nat -> Z -> Z; natoms : nat -> Z }.

Definition good (L : layout) (spOf : nat -> space) : Prop :=
  forall k, 0 <= natoms L k /\
    om L k 0 = 0 /\ or_ L k 0 = 0 /\ ot L k 0 = 0 /\
    mSize (spOf k) = om L k (natoms L k) /\ rSize (spOf k) = or_ L k (natoms L k) /\
    tSize (spOf k) = ot L k (natoms L k) /\
    (* every atom has at least one coordinate, and no more in its manifold than in
       its representation and its tangent space *)
    (forall a, om L k a < om L k (a + 1)) /\
    (forall a, om L k (a + 1) - om L k a <= or_ L k (a + 1) - or_ L k a) /\
    (forall a, om L k (a + 1) - om L k a <= ot L k (a + 1) - ot L k a).

(* [v] is made of the atoms [q] of its super-variable. *)
Definition made_of (L : layout) (v : cvar) (q : Range) : Prop :=
  let k := c_sup v in
  0 <= start q /\ 0 <= dim q /\ rend q <= natoms L k /\
  mSize (c_shift v) = om L k (start q) /\ mSize (c_space v) = om L k (rend q) - om L k (start q) /\
  rSize (c_shift v) = or_ L k (start q) /\ rSize (c_space v) = or_ L k (rend q) - or_ L k (start q) /\
  tSize (c_shift v) = ot L k (start q) /\ tSize (c_space v) = ot L k (rend q) - ot L k (start q).

(* Calls on atoms: (super-variable, atoms). *)
Inductive aop := AAdd (k : nat) (q : Range) | ARemove (k : nat) (q : Range) | AClear | AVars.
Definition denotes (L : layout) (o : vcop) (a : aop) : Prop :=
  match o, a with
  | CAdd v, AAdd k q | CRemove v, ARemove k q => c_sup v = k /\ made_of L v q
  | CClear, AClear | CVariables, AVars => True
  | _, _ => False
  end.

(* How often each atom is counted after a history; a remove is effective only when all
   its atoms are counted. *)
Definition upd (c : nat -> Z -> Z) (k : nat) (f : Z -> Z) : nat -> Z -> Z :=
  fun j => if Nat.eqb j k then f else c j.
Definition aspec_step (c : nat -> Z -> Z) (a : aop) : nat -> Z -> Z :=
  match a with
  | AAdd k q => upd c k (fun x => c k x + ind q x)
  | ARemove k q => if effective (c k) q then upd c k (fun x => c k x - ind q x) else c
  | AClear => fun _ _ => 0
  | AVars => c
  end.
Fixpoint aspec_from (c : nat -> Z -> Z) (h : list aop) : nat -> Z -> Z :=
  match h with [] => c | a :: h' => aspec_from (aspec_step c a) h' end.
Definition aspec (h : list aop) : nat -> Z -> Z := aspec_from (fun _ _ => 0) h.

(* The part of a list of (super-variable, atoms) that concerns [k]. *)
Definition of_sup (k : nat) (l : list (nat * Range)) : list Range :=
  map snd (filter (fun p => Nat.eqb (fst p) k) l).
(* The variables [vs] are made of the parts [ps], listed by increasing super-variable. *)
Definition listed (L : layout) (vs : list cvar) (ps : list (nat * Range)) : Prop :=
  Forall2 (fun v p => c_sup v = fst p /\ made_of L v (snd p)) vs ps /\
  StronglySorted (fun a b => (fst a <= fst b)%nat) ps.
