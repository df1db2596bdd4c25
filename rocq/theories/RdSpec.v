(* What following a reference means *)
From Coq Require Import List QArith.
From Verif Require Import Base QSum VariableModel LtcModel LtcSpec.
Import ListNotations.

(* x + h d, coefficient by coefficient *)
Definition advance (h : Q) (x d : list Q) : list Q := map (fun p => (fst p + h * snd p)%Q) (combine x d).
(* from env to env', the variables vs have moved by h times their derivatives ds, exactly and for all of them *)
Definition moved (h : Q) (vs ds : list nat) (env env' : nat -> list Q) : Prop :=
  length ds = length vs /\ forall v d, In (v, d) (combine vs ds) -> length (env v) = length (env d) /\ env' v = advance h (env v) (env d).
(* the part of a linear function that depends on its variables, coefficient i *)
Definition linearPart (f : func) (env : nat -> list Q) (i : nat) : Q := chainRule f env (f_vars f) i.
(* the reference summed over the first n instants, coefficient i *)
Definition integral (h : Q) (refs : nat -> list Q) (n i : nat) : Q := (h * qsumn (fun k => nth i (refs k) 0) n)%Q.
