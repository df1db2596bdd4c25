(* What a matrix that can be resized should say *)
From Coq Require Import List Bool Arith QArith.
From Verif Require Import Base BmModel.
Import ListNotations.
Local Open Scope nat_scope.

(* A matrix: its size, and its coefficients as far as they are known *)
Record mat := mkMat { t_m : nat; t_n : nat; t_at : nat -> nat -> option Q }.
(* A change of size forgets the coefficients, except one that only removes columns or does nothing, which keeps the
   ones of the columns that remain *)
Definition forget (t : mat) (m n : nat) (keep : bool) : mat :=
  mkMat m n (fun i j => if keep && (m =? t_m t) && (j <? t_n t) then t_at t i j else None).
Definition set (t : mat) (i j : nat) (x : Q) : mat := mkMat (t_m t) (t_n t) (fun a b => if (a =? i) && (b =? j) then Some x else t_at t a b).
Definition mstep (t : mat) (o : bop) : mat :=
  match o with
  | Resize m n => forget t m n (n <=? t_n t)
  | Write i j x => set t i j x
  | Assign m n A => mkMat m n (fun i j => Some (A i j))
  end.
Fixpoint mrun (t : mat) (l : list bop) : mat := match l with [] => t | o :: l => mrun (mstep t o) l end.
Definition inside (t : mat) (i j : nat) : Prop := i < t_m t /\ j < t_n t.
(* all writes are inside the matrix *)
Fixpoint valid (t : mat) (l : list bop) : Prop :=
  match l with [] => True | o :: l => match o with Write i j _ => inside t i j | _ => True end /\ valid (mstep t o) l end.
(* the number of coefficients asked for by each call that changes the size *)
Fixpoint asked (l : list bop) : list nat :=
  match l with [] => [] | Resize m n :: l => m * n :: asked l | Assign m n _ :: l => m * n :: asked l | Write _ _ _ :: l => asked l end.
