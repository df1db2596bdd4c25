(* Specification for C35: the registrations with the address of the client's token that keeps each
   one alive, None once it is gone, and the addresses of the clients' tokens. *)
From Coq Require Import List Bool Arith.
Import ListNotations.
From Verif Require Import Base TokenModel CallbackModel.
Local Open Scope nat_scope.

Record spec := mkS { regs : list (cb * option nat); clients : nat -> bool }.
Definition sempty : spec := mkS [] (fun _ => false).
(* the token in [a] is gone *)
Definition forget (a : nat) (o : option nat) : option nat :=
  match o with Some x => if x =? a then None else Some x | None => None end.
(* the token in [b] is now in [a] *)
Definition follow (a b : nat) (o : option nat) : option nat :=
  match o with Some x => Some (if x =? b then a else x) | None => None end.
Definition onOwners (f : option nat -> option nat) (l : list (cb * option nat)) : list (cb * option nat) :=
  map (fun p => (fst p, f (snd p))) l.
Fixpoint ownerIndex (a : nat) (l : list (cb * option nat)) : option nat :=
  match l with
  | [] => None
  | (_, Some x) :: l' => if x =? a then Some 0 else option_map S (ownerIndex a l')
  | (_, None) :: l' => option_map S (ownerIndex a l')
  end.
(* What the clients' actions mean.  UB: using a token that does not live, constructing one on top of
   another, or unregistering from a callback itself or one registered before it. *)
Definition scop (busy : option nat) (s : spec) (c : cop) : res spec :=
  match c with
  | CNew a => if clients s a then UB else Ok (mkS (regs s) (upd (clients s) a true))
  | CMoveNew a b => if clients s a || negb (clients s b) then UB
                    else Ok (mkS (onOwners (follow a b) (regs s)) (upd (clients s) a true))
  | CMoveAssign a b => if clients s a && clients s b
                       then Ok (mkS (onOwners (fun o => follow a b (forget a o)) (regs s)) (clients s)) else UB
  | CDelete a => if clients s a then Ok (mkS (onOwners (forget a) (regs s)) (upd (clients s) a false)) else UB
  | CUnregister a =>
      if clients s a then
        match ownerIndex a (regs s), busy with
        | None, _ => Throw
        | Some i, Some j => if i <=? j then UB else Ok (mkS (removeAt i (regs s)) (clients s))
        | Some i, None => Ok (mkS (removeAt i (regs s)) (clients s))
        end
      else UB
  end.
Fixpoint scops (busy : option nat) (s : spec) (l : list cop) : res spec :=
  match l with [] => Ok s | c :: l' => do s1 <- scop busy s c; scops busy s1 l' end.
(* A run from registration [i] on: the live ones are invoked in order, the others are dropped. *)
Inductive runs : nat -> spec -> list nat -> spec -> Prop :=
| runs_end i s : length (regs s) <= i -> runs i s [] s
| runs_live i s c a s1 out s2 : nth_error (regs s) i = Some (c, Some a) -> scops (Some i) s (script c) = Ok s1 ->
    runs (S i) s1 out s2 -> runs i s (label c :: out) s2
| runs_dead i s c out s2 : nth_error (regs s) i = Some (c, None) ->
    runs i (mkS (removeAt i (regs s)) (clients s)) out s2 -> runs i s out s2.
Inductive sstep : spec -> iop -> list nat -> spec -> Prop :=
| ss_client s c s' : scop None s c = Ok s' -> sstep s (Client c) [] s'
| ss_regnew s a c al : clients s a = false ->
    sstep s (RegNew a c al) [] (mkS (regs s ++ [(c, Some a)]) (upd (clients s) a true))
| ss_regassign s a c al : clients s a = true ->
    sstep s (RegAssign a c al) [] (mkS (onOwners (forget a) (regs s) ++ [(c, Some a)]) (clients s))
| ss_run s out s' : runs 0 s out s' -> sstep s Run out s'.
Inductive ssteps : spec -> list iop -> list nat -> spec -> Prop :=
| sss_nil s : ssteps s [] [] s
| sss_cons s o l out1 s1 out2 s2 : sstep s o out1 s1 -> ssteps s1 l out2 s2 -> ssteps s (o :: l) (out1 ++ out2) s2.

(* The addresses taken by a registration. *)
Definition allocated (al : alloc) : list nat := tmp al :: place_ al :: match news al with Some l => l | None => [] end.
(* The allocator gives distinct addresses where nothing lives, and as many as needed. *)
Definition freshAlloc (m : mem) (n : nat) (al : alloc) : Prop :=
  NoDup (allocated al) /\ (forall a, In a (allocated al) -> m a = None) /\
  match news al with Some l => length l = n | None => True end.
(* [U] tells the addresses of the clients' tokens from those of the vector's storage. *)
Definition copIn (U : nat -> bool) (c : cop) : Prop := match c with CNew a | CMoveNew a _ => U a = true | _ => True end.
Definition iopIn (U : nat -> bool) (i : imp) (o : iop) : Prop :=
  match o with
  | Client c => copIn U c
  | RegNew a c al | RegAssign a c al =>
      U a = true /\ Forall (copIn U) (script c) /\ (forall x, In x (allocated al) -> U x = false) /\
      freshAlloc (mm i) (length (addrs i)) al
  | Run => True
  end.
Fixpoint placed (U : nat -> bool) (i : imp) (l : list iop) : Prop :=
  match l with [] => True | o :: l' => iopIn U i o /\ match istep i o with Ok r => placed U (snd r) l' | _ => True end end.
