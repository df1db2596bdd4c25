(* Specification for C36, C37, C38 and C40. *)
From Coq Require Import List Bool Arith QArith.
Import ListNotations.
From Verif Require Import Base DynModel.
Local Open Scope Q_scope.

(* component i of a vector *)
Definition at_ (i : nat) (l : list Q) : Q := nth i l 0.
(* the factor s brings the vector v between the bounds *)
Definition fits (mn mx v : list Q) (s : Q) : Prop :=
  forall i, (i < length v)%nat -> at_ i mn <= s * at_ i v /\ s * at_ i v <= at_ i mx.

(* The distance of a function value to its limit, for a lower or an upper limit. *)
Definition distance (t : ctype) (r f : Q) : Q := match t with LOWER_THAN => r - f | _ => f - r end.
(* The rate of change of that distance *)
Definition rate (t : ctype) (v : Q) : Q := match t with LOWER_THAN => - v | _ => v end.
(* The derivative x of the function satisfies the constraint with right-hand side b. *)
Definition satisfies (t : ctype) (x b : Q) : Prop := match t with LOWER_THAN => x <= b | _ => b <= x end.

(* The values given by the damper of one component along a sequence of states (f k, v k). *)
Fixpoint compAt (p : damper) (t : ctype) (c : comp) (r : Q) (f v : nat -> Q) (k : nat) : comp :=
  match k with O => c | S k' => fst (updateOne p t (compAt p t c r f v k') r (f k') (v k')) end.
Definition valueAt (p : damper) (t : ctype) (c : comp) (r : Q) (f v : nat -> Q) (k : nat) : option Q :=
  snd (updateOne p t (compAt p t c r f v k) r (f k) (v k)).
(* The same for all the components; nth i of the value at step k. *)
Fixpoint compsAt (p : damper) (t : ctype) (cs : list comp) (r : list Q) (f v : nat -> list Q) (k : nat) : list comp :=
  match k with O => cs | S k' => fst (updateAll p t (compsAt p t cs r f v k') r (f k') (v k')) end.
Definition valuesAt (p : damper) (t : ctype) (cs : list comp) (r : list Q) (f v : nat -> list Q) (k : nat) : list (option Q) :=
  snd (updateAll p t (compsAt p t cs r f v k) r (f k) (v k)).
(* A parameter of the damper, given once or for each component *)
Definition param (l : list Q) (i : nat) : Q := match l with [x] => x | _ => at_ i l end.
(* The step at which the stay of d below the threshold z that step k is part of began *)
Fixpoint start (z : Q) (d : nat -> Q) (k : nat) : nat :=
  match k with O => O | S k' => if Qle_bool (d k') z then start z d k' else k end.
(* The damping chosen automatically at distance d and velocity v, for the offset o *)
Definition autoXsi (t : ctype) (o D S d v : Q) : Q := o - rate t v * (D - S) / (d - S).
Definition offset (di : list Q) (o : option (list Q)) : list Q := match o with Some l => l | None => repeat 0 (length di) end.
