(* Model of tvm::utils::internal::BufferedMatrix (include/tvm/utils/internal/BufferedMatrix.h).  The buffer is a list of
   doubles, of which the ones not written since their allocation are None; [b_gen] counts the allocations and tells
   apart the blocks of memory.  A map made by get() is the block it points to with its size; Eigen's maps are stored by
   columns and check their indexes by assertions.  Sizes are natural numbers without overflow, doubles are rationals.
   The reference returned by operator= is the one to the map made at line 72, which is gone at the end of the function;
   it is not part of the model. *)
From Coq Require Import List Bool Arith QArith.
From Verif Require Import Base.
Import ListNotations.
Local Open Scope nat_scope.

Record bm := mkBm { b_m : nat; b_n : nat; b_buf : list (option Q); b_gen : nat }.
Record bmap := mkMap { p_gen : nat; p_m : nat; p_n : nat }.

(* BufferedMatrix::resize, BufferedMatrix.h:58-66; Eigen's resize to another size allocates, without initialization *)
Definition resize (s : bm) (m n : nat) : bm :=
  if length (b_buf s) <? m * n then mkBm m n (repeat None (2 * m * n)) (S (b_gen s)) else mkBm m n (b_buf s) (b_gen s).
(* BufferedMatrix::BufferedMatrix, line 50 *)
Definition newBuffered (m n : nat) : bm := resize (mkBm 0 0 [] 0) m n.
(* BufferedMatrix::get, lines 52-56 *)
Definition getMap (s : bm) : bmap := mkMap (b_gen s) (b_m s) (b_n s).
Fixpoint put {A} (l : list A) (k : nat) (x : A) : list A :=
  match l with [] => [] | a :: l => match k with 0 => x :: l | S k => a :: put l k x end end.
(* the coefficient (i, j) of an Eigen::Map; a block is freed by the next allocation *)
Definition place (s : bm) (p : bmap) (i j : nat) : res nat :=
  if (i <? p_m p) && (j <? p_n p) then
    if p_gen p =? b_gen s then let k := i + j * p_m p in if k <? length (b_buf s) then Ok k else UB else UB
  else UB.
Definition readMap (s : bm) (p : bmap) (i j : nat) : res Q :=
  do k <- place s p i j; match nth k (b_buf s) None with Some x => Ok x | None => UB end.
Definition writeMap (s : bm) (p : bmap) (i j : nat) (x : Q) : res bm :=
  do k <- place s p i j; Ok (mkBm (b_m s) (b_n s) (put (b_buf s) k (Some x)) (b_gen s)).
Fixpoint writeAll (s : bm) (p : bmap) (l : list (nat * nat)) (A : nat -> nat -> Q) : res bm :=
  match l with [] => Ok s | (i, j) :: l => do s <- writeMap s p i j (A i j); writeAll s p l A end.
(* operator=, lines 68-73, from a matrix of m rows and n columns *)
Definition assign (s : bm) (m n : nat) (A : nat -> nat -> Q) : res bm :=
  let s := resize s m n in writeAll s (getMap s) (list_prod (seq 0 m) (seq 0 n)) A.

Inductive bop := Resize (m n : nat) | Write (i j : nat) (x : Q) | Assign (m n : nat) (A : nat -> nat -> Q).
Definition bstep (s : bm) (o : bop) : res bm :=
  match o with Resize m n => Ok (resize s m n) | Write i j x => writeMap s (getMap s) i j x | Assign m n A => assign s m n A end.
Fixpoint brun (s : bm) (l : list bop) : res bm := match l with [] => Ok s | o :: l => do s <- bstep s o; brun s l end.
