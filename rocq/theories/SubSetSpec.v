(* Specification for C54. *)
From Coq Require Import List Bool Arith QArith.
Import ListNotations.
From Verif Require Import Base QSum SubstModel SubSetModel.
From Verif Require SubstSpec.
Local Open Scope nat_scope.

Section Spec.
Variable sz : nat -> nat.
Variable cdef : nat -> cons.

(* The substitutions that can be constructed: equalities; distinct variables, at least one; a variable is in
   a constraint, a constraint has a variable; the rank is at most the number of rows, itself at most
   the number of unknowns. *)
Definition acceptable (s : ssub) : Prop :=
  (forall c, In c (ss_cs s) -> k_equal (cdef c) = true) /\ ss_xs s <> [] /\ NoDup (ss_xs s) /\
  (forall x, In x (ss_xs s) -> exists c, In c (ss_cs s) /\ In x (c_vars (k_cst (cdef c)))) /\
  (forall c, In c (ss_cs s) -> exists x, In x (ss_xs s) /\ In x (c_vars (k_cst (cdef c)))) /\
  ss_rank s <= list_sum (map (fun c => c_size (k_cst (cdef c))) (ss_cs s)) <= list_sum (map sz (ss_xs s)).
(* The substitutions present after a history: s is added if it could be constructed. *)
Fixpoint deleted {A} (i : nat) (l : list A) : list A :=
  match l, i with [], _ => [] | _ :: l', 0 => l' | a :: l', S i' => a :: deleted i' l' end.
Definition full (cs : list nat) (rank : option nat) : nat :=
  match rank with Some r => r | None => list_sum (map (fun c => c_size (k_cst (cdef c))) cs) end.
Inductive present : list op -> list ssub -> Prop :=
| p_nil : present [] []
| p_add : forall h l cs xs r, present h l -> acceptable (mkSS cs xs (full cs r)) ->
    present (h ++ [OAdd cs xs r]) (l ++ [mkSS cs xs (full cs r)])
| p_refused : forall h l cs xs r, present h l -> ~ acceptable (mkSS cs xs (full cs r)) -> present (h ++ [OAdd cs xs r]) l
| p_remove : forall h l i, present h l -> present (h ++ [ORemove i]) (deleted i l)
| p_finalize : forall h l mm, present h l -> present (h ++ [OFinalize mm]) l
| p_update : forall h l D, present h l -> present (h ++ [OUpdate D]) l.

(* the values satisfy a constraint *)
Definition holds (D : data) (val : valuation) (c : nat) : Prop :=
  forall a, a < c_size (k_cst (cdef c)) ->
  (qsum (fun v => qsumn (fun t => d_jac D c v a t * val v t) (sz v)) (c_vars (k_cst (cdef c)))
   == SubstSpec.rhsValue (c_rhs (k_cst (cdef c))) (d_e D c a))%Q.
Definition all_hold (D : data) (val : valuation) (l : list ssub) : Prop :=
  forall s c, In s l -> In c (ss_cs s) -> holds D val c.

(* the calculators of the units fulfil their contract (see SubstSpec.v) for the jacobians of D *)
Definition contracted (D : data) (t : st) : Prop :=
  forall p u k s, nth_error (units t) p = Some u -> nth_error (n_subs u) k = Some s ->
  SubstSpec.contract (list_sum (map (fun c => c_size (k_cst (cdef c))) (ss_cs s))) (list_sum (map sz (ss_xs s))) (ss_rank s)
    (fillA sz (fun i v => match nth_error (ss_cs s) i with Some c => d_jac D c v | None => fun _ _ => 0%Q end) (toSub cdef s))
    (d_cal D p k).
(* t is the state after a history, a successful finalize (state t1) and updates, the last one with D *)
Definition finalized (hist : list op) (mm : nat -> ust * (nat -> calc)) (t1 : st) : Prop :=
  exists t0, run sz cdef hist init = Some t0 /\ finalize sz cdef mm t0 = Done t1.
(* two substitutions share neither variable nor constraint *)
Definition separate (l : list ssub) : Prop :=
  NoDup (flat_map ss_xs l) /\ NoDup (flat_map ss_cs l).
End Spec.
