(* What C86 speaks about. *)
From Coq Require Import List Bool ZArith QArith String.
Import ListNotations.
From Verif Require Import Base OptModel.
Local Open Scope string_scope.
Local Open Scope list_scope.

(* the value last given to an option *)
Fixpoint lastGiven (n : string) (l : list (string * val)) : option val :=
  match l with [] => None | (m, v) :: l => match lastGiven n l with Some w => Some w | None => if m =? n then Some v else None end end.
(* ... or else the default value of the class of options *)
Definition chosen (n : string) (l : list (string * val)) (d : option val) : option val := match lastGiven n l with Some v => Some v | None => d end.
(* the options used by the solver of TVM itself; the other ones are parameters of the library, with the same names *)
Definition own (k : kind) (n : string) : Prop :=
  match k with
  | LSSOL => n = "big_number" \/ n = "verbose"
  | QLD | Quadprog => True
  | LexLS => n = "big_number" \/ n = "verbose" \/ n = "warmStart"
  | LexLSH => n = "big_number" \/ n = "verbose" \/ n = "warmStart" \/ n = "feasibleFirstLevel"
  end.
(* what a parameter x of the library is when nobody chooses it: LSSOL keeps its basis and does four times as many iterations *)
Definition unchosen (k : kind) (n : string) (x : val) : val :=
  match k with
  | LSSOL => if n =? "persistence" then VB true
             else if (n =? "feasibilityMaxIter") || (n =? "optimalityMaxIter") then match x with VZ z => VZ (z + z + z + z) | _ => x end else x
  | _ => x
  end.
(* s has the values l for its options *)
Definition configured (k : kind) (libs : list params) (l : list (string * val)) (s : lsolver) : Prop :=
  (forall n d, In (n, d) (declared k) ->
     (own k n -> exists v, chosen n l d = Some v /\ In (n, v) (ls_fields s) /\ forall v', In (n, v') (ls_fields s) -> v' = v) /\
     (~ own k n -> Forall2 (fun before after => after n = match chosen n l d with Some v => v | None => unchosen k n (before n) end) libs (ls_libs s))) /\
  (forall n, (forall d, ~ In (n, d) (declared k)) -> ~ (k = LSSOL /\ n = "forceMinSize") ->
     Forall2 (fun before after : params => after n = before n) libs (ls_libs s)).
(* the calls of setters among those of the user *)
Fixpoint setters (l : list wop) : list (string * val) := match l with [] => [] | WSet n v :: l => (n, v) :: setters l | WScheme :: l => setters l end.
