(* The variables of a function, with the linearity they were declared with. *)
Require Import ZArith List Bool.
Require Import Verif.RangeModel Verif.VarVectorModel Verif.FopModel.
Import ListNotations.
Local Open Scope Z_scope.

Section S.
Context {A P : Type}.
Variable V : nat -> vslice.

(* [v] overlaps a variable of the list: it is part of it, or they have something in common *)
Definition part_of (v x : nat) : bool := Nat.eqb (sup (V x)) (sup (V v)) && (start (rng (V x)) <=? start (rng (V v))) && (rend (rng (V v)) <=? rend (rng (V x))).
Definition common (v x : nat) : bool := Nat.eqb (sup (V x)) (sup (V v)) && (start (rng (V x)) <? rend (rng (V v))) && (start (rng (V v)) <? rend (rng (V x))).
Definition declare (acc : list (nat * bool)) (v : nat) (b : bool) : list (nat * bool) :=
  if existsb (fun p => common v (fst p)) acc then acc else acc ++ [(v, b)].
(* until one has something in common with a variable it is not part of *)
Fixpoint declareAll (acc : list (nat * bool)) (vs : list nat) (b : bool) : list (nat * bool) :=
  match vs with
  | [] => acc
  | v :: vs => if existsb (fun p => common v (fst p)) acc && negb (existsb (fun p => part_of v (fst p)) acc) then acc else declareAll (declare acc v b) vs b
  end.
Definition declared1 (acc : list (nat * bool)) (o : fop A P) : list (nat * bool) :=
  match o with
  | FAdd v b => declare acc v b
  | FAddAll vs b => declareAll acc vs b
  | FRemove v => filter (fun p => negb (Nat.eqb (fst p) v)) acc
  | _ => acc
  end.
Definition declared (ops : list (fop A P)) : list (nat * bool) := fold_left declared1 ops [].
(* the size of the image, after it was resized *)
Definition size_after (m : Z) (ops : list (fop A P)) : Z := fold_left (fun m o => match o with FResize m' => m' | _ => m end) ops m.

(* the variables are not empty *)
Definition plain (ts : nat -> Z) (v : nat) : Prop := 0 < dim (rng (V v)) /\ 0 <= ts v.
Definition plain_op (ts : nat -> Z) (o : fop A P) : Prop :=
  match o with FAdd v _ => plain ts v | FAddAll vs _ => Forall (plain ts) vs | _ => True end.
(* Jacobians are only written for variables of the function *)
Definition proper_op (acc : list (nat * bool)) (o : fop A P) : Prop :=
  match o with FProps v _ => In v (map fst acc) | FSplit _ _ vars _ => incl vars (map fst acc) | _ => True end.
Definition proper (ops : list (fop A P)) : Prop := forall a o b, ops = a ++ o :: b -> proper_op (declared a) o.
End S.
(* columns of a matrix, cut into the blocks of some variables *)
Fixpoint cut {A} (ts : nat -> Z) (J : list A) (vars : list nat) : list (nat * list A) :=
  match vars with [] => [] | v :: vars => (v, firstn (Z.to_nat (ts v)) J) :: cut ts (skipn (Z.to_nat (ts v)) J) vars end.
Definition total (ts : nat -> Z) (vars : list nat) : Z := fold_right (fun v n => ts v + n) 0 vars.
