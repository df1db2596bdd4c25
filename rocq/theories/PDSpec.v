(* Gains as matrices, for the statements about the proportional dynamics *)
From Coq Require Import List Bool Arith Reals.
Import ListNotations.
From Verif Require Import Base PDModel.
Local Open Scope R_scope.

(* The coefficient (i, j) of the matrix a gain stands for *)
Definition dense (g : gain) (i j : nat) : R :=
  match g with
  | Scalar k => if i =? j then k else 0
  | Diagonal k => if i =? j then vc k i else 0
  | Matrix k => mc k i j
  end.
(* The gain has the size n *)
Definition sized (n : nat) (g : gain) : Prop :=
  match g with Scalar _ => True | Diagonal k => len k = n | Matrix k => rows k = n /\ cols k = n end.
(* The row i of K x *)
Definition product (n : nat) (g : gain) (x : nat -> R) (i : nat) : R := sum n (fun j => dense g i j * x j).
(* kv kv = 4 kp *)
Definition critical (n : nat) (kp kv : gain) : Prop :=
  forall i j, (i < n)%nat -> (j < n)%nat -> sum n (fun l => dense kv i l * dense kv l j) = 4 * dense kp i j.
(* The specification of the Schur decomposition of a matrix k of size n *)
Definition isSchur (n : nat) (k : mat) (u t : mat) : Prop :=
  rows u = n /\ cols u = n /\
  (forall i j, (i < n)%nat -> (j < n)%nat -> sum n (fun l => mc u i l * mc u j l) = if i =? j then 1 else 0) /\
  (forall i j, (i < n)%nat -> (j < n)%nat -> sum n (fun l => mc u l i * mc u l j) = if i =? j then 1 else 0) /\
  (forall i j, (i < n)%nat -> (j < n)%nat -> mc k i j = sum n (fun l => sum n (fun m => mc u i l * mc t l m * mc u j m))).
(* The matrix T is diagonal (as for a symmetric k) *)
Definition isDiagonal (n : nat) (t : mat) : Prop := forall i j, (i < n)%nat -> (j < n)%nat -> i <> j -> mc t i j = 0.

(* Operations on a dynamics under use *)
Inductive pdop := SetBoth (kp kv : gain) | SetKp (kp : gain).
Fixpoint pRun (p : pimpl) (gs : list gain) : res pimpl := match gs with [] => Ok p | g :: gs => do p <- pGain p g; pRun p gs end.
Definition pdStep (schur : mat -> mat * mat) (p : pdimpl) (o : pdop) : res (option pdimpl) :=
  match o with SetBoth kp kv => do q <- pdGains p kp kv; Ok (Some q) | SetKp kp => pdGain schur p kp end.
Fixpoint pdRun (schur : mat -> mat * mat) (p : pdimpl) (os : list pdop) : res (option pdimpl) :=
  match os with [] => Ok (Some p) | o :: os => do q <- pdStep schur p o; match q with Some q => pdRun schur q os | None => Ok None end end.

