(* Model of IdProvider (include/tvm/internal/IdProvider.h), ObjWithId (include/tvm/internal/ObjWithId.h,
   src/internal/ObjWithId.cpp), the comparisons by id (include/tvm/utils/internal/map.h:11-29), Clock
   (src/Clock.cpp, include/tvm/Clock.h) and the guard by which Robot and CollisionFunction follow it.
   Any number of threads create objects; the steps of makeId are interleaved in any order. *)
From Coq Require Import List Bool Arith ZArith.
Import ListNotations.
Local Open Scope Z_scope.

Definition upd {A} (f : nat -> A) (i : nat) (a : A) : nat -> A := fun j => if Nat.eqb j i then a else f j.

Definition intMax : Z := 2147483647.

(* Where a thread is in the constructor ObjWithId() (ObjWithId.h:29) of the object at an address. *)
Inductive pc :=
| Idle                          (* not in the constructor *)
| Entered (a : nat)             (* makeId called, about to lock, IdProvider.h:27 *)
| Locked (a : nat)              (* mutex_ held, about to read id_, line 28 *)
| Loaded (a : nat) (v : Z)      (* about to write id_ *)
| Stored (a : nat) (v : Z)      (* about to unlock, end of line 29 *)
| Unlocked (a : nat) (v : Z).   (* about to initialise the id_ of the object, ObjWithId.h:29 *)

(* What is at an address: nothing, an object being constructed, an object with its id_. *)
Inductive cell := Free | Building | Live (id : Z).

Record state := mkS { mutex : option nat; idc : Z; pcs : nat -> pc; objs : nat -> cell }.

(* IdProvider.h:21-22; no object yet *)
Definition init : state := mkS None 0 (fun _ => Idle) (fun _ => Free).

(* Start t a: thread t enters the constructor of an object at the free address a.
   Go t: thread t does its next step of the constructor.
   The moves and the destructor are single steps: that two threads do not touch the same object at
   the same time is up to the user. *)
Inductive event :=
| Start (t a : nat)
| Go (t : nat)
| MoveNew (a b : nat)
| MoveAssign (a b : nat)
| Delete (a : nat).

(* Blocked: the event cannot happen in this state (the mutex is held, the thread is elsewhere, the
   address is not what it should be).  Undefined: overflow of the int id_.  Next: the new state and
   the id given to an object whose construction ends, with the thread. *)
Inductive outcome := Blocked | Undefined | Next (s : state) (out : list (nat * Z)).

Definition step (s : state) (e : event) : outcome :=
  match e with
  | Start t a =>
      match pcs s t, objs s a with
      | Idle, Free => Next (mkS (mutex s) (idc s) (upd (pcs s) t (Entered a)) (upd (objs s) a Building)) []
      | _, _ => Blocked
      end
  | Go t =>
      match pcs s t with
      | Idle => Blocked
      | Entered a =>
          match mutex s with
          | None => Next (mkS (Some t) (idc s) (upd (pcs s) t (Locked a)) (objs s)) []
          | Some _ => Blocked
          end
      | Locked a => Next (mkS (mutex s) (idc s) (upd (pcs s) t (Loaded a (idc s))) (objs s)) []
      | Loaded a v =>
          if v <? intMax then Next (mkS (mutex s) (v + 1) (upd (pcs s) t (Stored a v)) (objs s)) [] else Undefined
      | Stored a v => Next (mkS None (idc s) (upd (pcs s) t (Unlocked a v)) (objs s)) []
      | Unlocked a v => Next (mkS (mutex s) (idc s) (upd (pcs s) t Idle) (upd (objs s) a (Live v))) [(t, v)]
      end
  (* ObjWithId(ObjWithId &&), ObjWithId.h:17 *)
  | MoveNew a b =>
      match objs s a, objs s b with
      | Free, Live v => Next (mkS (mutex s) (idc s) (pcs s) (upd (upd (objs s) a (Live v)) b (Live (-1)))) []
      | _, _ => Blocked
      end
  (* operator=(ObjWithId &&), ObjWithId.h:19-24 *)
  | MoveAssign a b =>
      match objs s a, objs s b with
      | Live _, Live v => Next (mkS (mutex s) (idc s) (pcs s) (upd (upd (objs s) a (Live v)) b (Live (-1)))) []
      | _, _ => Blocked
      end
  | Delete a =>
      match objs s a with
      | Live _ => Next (mkS (mutex s) (idc s) (pcs s) (upd (objs s) a Free)) []
      | _ => Blocked
      end
  end.

Fixpoint run (s : state) (es : list event) : outcome :=
  match es with
  | [] => Next s []
  | e :: es' =>
      match step s e with
      | Next s1 o1 => match run s1 es' with Next s2 o2 => Next s2 (o1 ++ o2) | r => r end
      | r => r
      end
  end.

(* IdLess and IdEqual on pointers, map.h:16-17 and 26-27; None is the null pointer *)
Definition idLess (l r : option Z) : bool := match l, r with Some a, Some b => a <? b | _, _ => false end.
Definition idEqual (l r : option Z) : bool := match l, r with Some a, Some b => a =? b | _, _ => false end.

(* Clock: ticks_ is a uint64_t, Clock.h:57; advance, Clock.cpp:12 *)
Definition two64 : Z := 18446744073709551616.
Definition ticks0 : Z := 0.
Definition advance (ticks : Z) : Z := (ticks + 1) mod two64.
Fixpoint advances (n : nat) (ticks : Z) : Z := match n with O => ticks | Datatypes.S n' => advances n' (advance ticks) end.

(* Something following the clock: Robot.cpp:22 and 138-153, CollisionFunction.cpp:15 and 149-161.
   done counts the executions of the guarded block (one integration over dt for Robot). *)
Record follower := mkF { now : Z; last : Z; done : nat }.
Inductive tick := Advance | Update.
Definition attach (ticks : Z) : follower := mkF ticks ticks 0.
Definition fstep (f : follower) (k : tick) : follower :=
  match k with
  | Advance => mkF (advance (now f)) (last f) (done f)
  | Update => if last f =? now f then f else mkF (now f) (now f) (Datatypes.S (done f))
  end.
Definition frun (f : follower) (h : list tick) : follower := fold_left fstep h f.
