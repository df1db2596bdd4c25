(* Specification notions for the permission to allocate. *)
From Coq Require Import List Arith Bool.
From Verif Require Import Base MalModel.
Import ListNotations.

(* The number of overrides which are open when the code throws, if it does. *)
Fixpoint mal_depth (c : mal_code) : option nat :=
  match c with
  | MSkip | MAlloc => None
  | MThrow => Some 0
  | MSeq a b => match mal_depth a with Some n => Some n | None => mal_depth b end
  | MTemp a => match mal_depth a with Some n => Some (S n) | None => None end
  end.

(* The state of the permission with n overrides with true left open. *)
Fixpoint mal_open (n : nat) (m : mal_mem) : mal_mem :=
  match n with
  | O => m
  | S k => mal_open k {| mal_flag := true; mal_stack := mal_flag m :: mal_stack m |}
  end.

(* The scheme s was never used on the problem p. *)
Definition mal_fresh (w : mal_world) (p s : nat) : Prop :=
  forall d, ~ In (p, s, d) (mw_data w).

(* Calls that mirror overrides by restores; [stable] calls also do not set the
   permission outside of an override.  Only schemes already used by [w] on a
   problem are used. *)
Inductive mirrored (w : mal_world) : list mal_op -> Prop :=
| mi_nil : mirrored w []
| mi_set b l : mirrored w l -> mirrored w (OSet b :: l)
| mi_is l : mirrored w l -> mirrored w (OIs :: l)
| mi_alloc l : mirrored w l -> mirrored w (OAlloc :: l)
| mi_change p l : mirrored w l -> mirrored w (OChange p :: l)
| mi_solve p s sc l : ~ mal_fresh w p s -> mirrored w l -> mirrored w (OSolve p s sc :: l)
| mi_over b l1 l2 : mirrored w l1 -> mirrored w l2 ->
    mirrored w (OOverride b :: l1 ++ ORestore :: l2).

Inductive stable (w : mal_world) : list mal_op -> Prop :=
| st_nil : stable w []
| st_is l : stable w l -> stable w (OIs :: l)
| st_alloc l : stable w l -> stable w (OAlloc :: l)
| st_change p l : stable w l -> stable w (OChange p :: l)
| st_solve p s sc l : ~ mal_fresh w p s -> stable w l -> stable w (OSolve p s sc :: l)
| st_over b l1 l2 : mirrored w l1 -> stable w l2 -> stable w (OOverride b :: l1 ++ ORestore :: l2).

(* All calls return. *)
Definition all_return (bs : list mal_obs) : Prop := ~ In BThrew bs /\ ~ In BUndef bs.

Definition is_create (e : mal_event) : bool := match e with ECreate _ _ _ => true | _ => false end.
Definition creations (w : mal_world) : nat := length (filter is_create (mw_log w)).
Definition is_override (o : mal_op) : bool := match o with OOverride _ => true | _ => false end.
Definition is_restore (o : mal_op) : bool := match o with ORestore => true | _ => false end.
Definition overrides (l : list mal_op) : nat := length (filter is_override l).
Definition restores (l : list mal_op) : nat := length (filter is_restore l).

(* A resolution as one code, as far as the permission is concerned: the first
   use of a scheme on a problem behaves as if what follows were between an
   override and a restore that never comes. *)
Definition mal_rest (sc : mal_script) : mal_code :=
  MSeq (ms_update sc) (MSeq (MTemp (ms_updata sc))
    (MSeq (ms_solve sc) (MSeq (ms_setvars sc) (ms_subst sc)))).

Definition mal_final_code (w : mal_world) (p : nat) (sc : mal_script) : mal_code :=
  if existsb (Nat.eqb p) (mw_final w) then MSkip else ms_final sc.

Definition mal_first (w : mal_world) (p : nat) (sc : mal_script) : mal_code :=
  MSeq (mal_final_code w p sc) (MTemp (MSeq (ms_create sc) (mal_rest sc))).

Definition mal_again (w : mal_world) (p : nat) (sc : mal_script) : mal_code :=
  MSeq (mal_final_code w p sc) (mal_rest sc).

(* The resolutions of the problem p that come first, or first after a change of p; [done]: p was solved since its last change. *)
Fixpoint mal_needed (p : nat) (done : bool) (l : list mal_op) : nat :=
  match l with
  | [] => 0
  | OChange q :: r => mal_needed p (if Nat.eqb p q then false else done) r
  | OSolve q _ _ :: r => if Nat.eqb p q then (if done then 0 else 1) + mal_needed p true r else mal_needed p done r
  | _ :: r => mal_needed p done r
  end.
Definition is_final (p : nat) (e : mal_event) : bool := match e with EFinal q => Nat.eqb p q | _ => false end.
Definition finals (p : nat) (w : mal_world) : nat := length (filter (is_final p) (mw_log w)).
