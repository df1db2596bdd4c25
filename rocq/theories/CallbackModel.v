(* Model of CallbackManager (include/tvm/internal/CallbackManager.h) on top of the memory of tokens
   (TokenModel.v).  The vector callbacks_ is the list of the addresses of its elements and the list
   of their callbacks.  A callback is a label, telling the callbacks apart, and what its body does to
   the tokens of the clients and to the manager: moves, destructions, calls to unregisterCallback.
   Bodies that call registerCallback or run of the same manager are not modelled.  Where a
   reallocation takes place and the addresses of new objects are chosen by the caller of the model. *)
From Coq Require Import List Bool Arith.
Import ListNotations.
From Verif Require Import Base TokenModel.
Local Open Scope nat_scope.

(* What clients do: the tokens they hold are created, moved, destroyed, given to unregisterCallback. *)
Inductive cop :=
| CNew (a : nat) | CMoveNew (a b : nat) | CMoveAssign (a b : nat) | CDelete (a : nat) | CUnregister (a : nat).
Record cb := mkCb { label : nat; script : list cop }.
Record imp := mkI { mm : mem; addrs : list nat; cbs : list cb }.

Definition removeAt {A} (i : nat) (l : list A) : list A := firstn i l ++ skipn (S i) l.
(* std::vector::erase: the elements after the one erased are move-assigned one place down, the last
   one is destroyed *)
Fixpoint shift (m : mem) (l : list nat) : res mem :=
  match l with
  | [] => UB
  | a :: l' => match l' with
               | [] => delete m a
               | b :: _ => do m1 <- moveAssign m a b; shift m1 l'
               end
  end.
Definition erase (s : imp) (i : nat) : res imp :=
  do m <- shift (mm s) (skipn i (addrs s));
  Ok (mkI m (removelast (addrs s)) (removeAt i (cbs s))).
(* reallocation: each element is moved to its new place and destroyed *)
Fixpoint relocate (m : mem) (olds news : list nat) : res mem :=
  match olds, news with
  | [], [] => Ok m
  | o :: os, n :: ns => do m1 <- moveNew m n o; do m2 <- delete m1 o; relocate m2 os ns
  | _, _ => UB
  end.
(* addresses taken by a registration: the temporary, the new element, the elements if they are moved *)
Record alloc := mkAl { tmp : nat; place_ : nat; news : option (list nat) }.
(* registerCallback up to the handle it returns, which points to place_, CallbackManager.h:46-50 *)
Definition registerCb (s : imp) (c : cb) (al : alloc) : res imp :=
  do m1 <- newToken (mm s) (tmp al);
  do m2 <- moveNew m1 (place_ al) (tmp al);
  do m3 <- match news al with None => Ok m2 | Some l => relocate m2 (addrs s) l end;
  do m4 <- delete m3 (tmp al);
  Ok (mkI m4 (match news al with None => addrs s | Some l => l end ++ [place_ al]) (cbs s ++ [c])).
(* the find_if of unregisterCallback, lines 54-55 *)
Fixpoint findPaired (m : mem) (l : list nat) (t : nat) : res (option nat) :=
  match l with
  | [] => Ok None
  | v :: l' =>
      do o <- get m v;
      match o with
      | Some p => if p =? t then Ok (Some 0) else do r <- findPaired m l' t; Ok (option_map S r)
      | None => do r <- findPaired m l' t; Ok (option_map S r)
      end
  end.
(* unregisterCallback, lines 52-60.  [busy] is the index of the callback being invoked by run, if
   any: to erase it or one before assigns to or destroys a std::function during its call. *)
Definition unregister (busy : option nat) (s : imp) (t : nat) : res imp :=
  do r <- findPaired (mm s) (addrs s) t;
  match r with
  | None => Throw
  | Some i => match busy with
              | Some j => if i <=? j then UB else erase s i
              | None => erase s i
              end
  end.
Definition icop (busy : option nat) (s : imp) (c : cop) : res imp :=
  match c with
  | CNew a => do m <- newToken (mm s) a; Ok (mkI m (addrs s) (cbs s))
  | CMoveNew a b => do m <- moveNew (mm s) a b; Ok (mkI m (addrs s) (cbs s))
  | CMoveAssign a b => do m <- moveAssign (mm s) a b; Ok (mkI m (addrs s) (cbs s))
  | CDelete a => do m <- delete (mm s) a; Ok (mkI m (addrs s) (cbs s))
  | CUnregister a => do _ <- get (mm s) a; unregister busy s a
  end.
Fixpoint icops (busy : option nat) (s : imp) (l : list cop) : res imp :=
  match l with [] => Ok s | c :: l' => do s1 <- icop busy s c; icops busy s1 l' end.
(* run, lines 62-76, with the labels of the callbacks invoked.  Each turn increases i or removes an
   element: as many turns as elements are enough. *)
Fixpoint irun (fuel i : nat) (s : imp) : res (list nat * imp) :=
  if length (addrs s) <=? i then Ok ([], s) else
  match fuel with
  | 0 => UB
  | S f =>
      match nth_error (addrs s) i, nth_error (cbs s) i with
      | Some v, Some c =>
          do o <- get (mm s) v;
          match o with
          | Some _ => do s1 <- icops (Some i) s (script c);
                      do r <- irun f (S i) s1;
                      Ok (label c :: fst r, snd r)
          | None => do s1 <- erase s i; irun f i s1
          end
      | _, _ => UB
      end
  end.
(* Clients register by constructing a token from the handle, or by assigning the handle to one. *)
Inductive iop := Client (c : cop) | RegNew (a : nat) (c : cb) (al : alloc) | RegAssign (a : nat) (c : cb) (al : alloc) | Run.
Definition istep (s : imp) (o : iop) : res (list nat * imp) :=
  match o with
  | Client c => do s1 <- icop None s c; Ok ([], s1)
  | RegNew a c al => do s1 <- registerCb s c al;
                     do m <- fromHandle (mm s1) a (Some (place_ al));
                     Ok ([], mkI m (addrs s1) (cbs s1))
  | RegAssign a c al => do s1 <- registerCb s c al;
                        do m <- assignHandle (mm s1) a (Some (place_ al));
                        Ok ([], mkI m (addrs s1) (cbs s1))
  | Run => irun (length (addrs s)) 0 s
  end.
Definition iempty : imp := mkI (fun _ => None) [] [].
Fixpoint isteps (s : imp) (l : list iop) : res (list nat * imp) :=
  match l with
  | [] => Ok ([], s)
  | o :: l' => do r <- istep s o; do r' <- isteps (snd r) l'; Ok (fst r ++ fst r', snd r')
  end.
