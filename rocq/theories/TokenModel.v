(* Model of PairElementToken and PairElementTokenHandle (include/tvm/internal/PairElementToken.h).
   The memory of tokens maps an address to the pointer otherPairElement_ of the token living there,
   None when no token does; handles have their own memory. Using a token that does not live is UB,
   as is using the null pointer of an invalid handle. The asserts are not compiled in. *)
From Coq Require Import List Bool Arith.
Import ListNotations.
From Verif Require Import Base.
Local Open Scope nat_scope.

Definition upd {A} (f : nat -> A) (i : nat) (a : A) : nat -> A := fun j => if j =? i then a else f j.
Definition mem := nat -> option (option nat).

(* p->otherPairElement_ *)
Definition get (m : mem) (p : nat) : res (option nat) := match m p with Some o => Ok o | None => UB end.
Definition set (m : mem) (p : nat) (o : option nat) : res mem := match m p with Some _ => Ok (upd m p (Some o)) | None => UB end.
(* construction in free memory *)
Definition place (m : mem) (a : nat) (o : option nat) : res mem := match m a with None => Ok (upd m a (Some o)) | Some _ => UB end.
(* if(isPaired()) otherPairElement_->notifyMove(v) or notifyDeath(), PairElementToken.h:134-136 *)
Definition notify (m : mem) (o : option nat) (v : option nat) : res mem := match o with None => Ok m | Some p => set m p v end.

(* PairElementToken(), line 47 *)
Definition newToken (m : mem) (a : nat) : res mem := place m a None.
(* PairElementToken(PairElementToken &&), lines 52-57 *)
Definition moveNew (m : mem) (a b : nat) : res mem :=
  do o <- get m b;
  do m1 <- place m a o;
  do m2 <- set m1 b None;
  notify m2 o (Some a).
(* operator=(PairElementToken &&), lines 70-80 *)
Definition moveAssign (m : mem) (a b : nat) : res mem :=
  do oa <- get m a;
  do m1 <- notify m oa None;
  do ob <- get m1 b;
  do m2 <- set m1 a ob;
  do m3 <- set m2 b None;
  do oa' <- get m3 a;
  notify m3 oa' (Some a).
(* ~PairElementToken, lines 97-101 *)
Definition delete (m : mem) (a : nat) : res mem :=
  do o <- get m a;
  do m1 <- notify m o None;
  Ok (upd m1 a None).
(* pairWith, lines 104-110 *)
Definition pairWith (m : mem) (a b : nat) : res mem :=
  do oa <- get m a;
  match oa with
  | Some _ => Throw
  | None =>
      do ob <- get m b;
      match ob with
      | Some _ => Throw
      | None => do m1 <- set m a (Some b); set m1 b (Some a)
      end
  end.
(* PairElementToken(PairElementTokenHandle &&), lines 62-67 *)
Definition fromHandle (m : mem) (a : nat) (h : option nat) : res mem :=
  do m1 <- place m a h;
  match h with None => UB | Some p => set m1 p (Some a) end.
(* operator=(PairElementTokenHandle &&), lines 85-95 *)
Definition assignHandle (m : mem) (a : nat) (h : option nat) : res mem :=
  do oa <- get m a;
  do m1 <- notify m oa None;
  do m2 <- set m1 a h;
  match h with None => UB | Some p => set m2 p (Some a) end.

Record state := mkSt { toks : mem; hands : nat -> option (option nat) }.
Inductive op :=
| New (a : nat) | MoveNew (a b : nat) | MoveAssign (a b : nat) | Delete (a : nat) | PairWith (a b : nat)
| MakeHandle (h a : nat)     (* PairElementTokenHandle(PairElementToken &), lines 141-142 *)
| FromHandle (a h : nat) | AssignHandle (a h : nat) | DropHandle (h : nat).
Definition liftT (s : state) (x : res mem) : res state := do m <- x; Ok (mkSt m (hands s)).
Definition useHandle (s : state) (h : nat) (f : option nat -> res mem) : res state :=
  match hands s h with
  | None => UB
  | Some p => do m <- f p; Ok (mkSt m (upd (hands s) h (Some None)))
  end.
Definition step (s : state) (o : op) : res state :=
  match o with
  | New a => liftT s (newToken (toks s) a)
  | MoveNew a b => liftT s (moveNew (toks s) a b)
  | MoveAssign a b => liftT s (moveAssign (toks s) a b)
  | Delete a => liftT s (delete (toks s) a)
  | PairWith a b => liftT s (pairWith (toks s) a b)
  | MakeHandle h a => match hands s h with None => Ok (mkSt (toks s) (upd (hands s) h (Some (Some a)))) | Some _ => UB end
  | FromHandle a h => useHandle s h (fromHandle (toks s) a)
  | AssignHandle a h => useHandle s h (assignHandle (toks s) a)
  | DropHandle h => Ok (mkSt (toks s) (upd (hands s) h None))
  end.
Definition empty : state := mkSt (fun _ => None) (fun _ => None).
(* std::swap of two tokens, with its temporary *)
Definition swap (m : mem) (tmp a b : nat) : res mem :=
  do m1 <- moveNew m tmp a;
  do m2 <- moveAssign m1 a b;
  do m3 <- moveAssign m2 b tmp;
  delete m3 tmp.
