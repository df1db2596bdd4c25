(* The numbers of the schemes over time, and what a constraint says *)
From Coq Require Import List Bool Arith QArith.
From Verif Require Import Base BgModel.
Import ListNotations.
Local Open Scope nat_scope.

(* the numbers given to the schemes, in order of creation, after the calls (latest first) *)
Fixpoint numbers (rev : list bgop) : list Q :=
  match rev with
  | [] => []
  | NewScheme _ b :: l => numbers l ++ [b]
  | SetBig i b :: l => upd (numbers l) i b
  | _ :: l => numbers l
  end.
(* the scheme of each problem *)
Fixpoint schemes (rev : list bgop) : list nat :=
  match rev with [] => [] | Create i _ :: l => schemes l ++ [i] | _ :: l => schemes l end.
(* the number of the last scheme, whichever it is, that has created or rebuilt the data of a problem *)
Fixpoint lastBuilt (b0 : Q) (rev : list bgop) : Q :=
  match rev with
  | [] => b0
  | Create i _ :: l => nth i (numbers l) b0
  | Reset d _ :: l => nth (nth d (schemes l) 0) (numbers l) b0
  | _ :: l => lastBuilt b0 l
  end.
(* the call assigns constraints for the problem d *)
Definition assigns (before : list bgop) (o : bgop) (d : nat) : Prop :=
  match o with Create _ _ => d = length (schemes before) | Reset d' _ => d = d' | AddTask d' _ => d = d' | _ => False end.
(* the user's constraint *)
Definition userHolds (t : ctype) (lo up y : Q) : Prop :=
  match t with EQUAL => (lo <= y /\ y <= up) | GREATER_THAN => lo <= y | LOWER_THAN => y <= up | DOUBLE_SIDED => lo <= y /\ y <= up end%Q.
(* what the solver gets *)
Definition solverHolds (r : row) (lo up y : Q) : Prop := (fst (sides r lo up) <= y /\ y <= snd (sides r lo up))%Q.
(* the numbers ever given to the schemes *)
Definition given (l : list bgop) : list Q := flat_map (fun o => match o with NewScheme _ b => [b] | SetBig _ b => [b] | _ => [] end) l.
