(* What C70 speaks about: the part of a computation graph seen through outputs that pass a test. *)
From Coq Require Import List Bool Arith Relations.
Import ListNotations.
From Verif Require Import Base CallGraphModel NdModel LgModel LgSpec GpModel.
Local Open Scope nat_scope.

Definition key (x : pval) : item := match x with PO o => AnOutput (fst o) (snd o) | PU u => AnUpdate (fst (fst u)) (snd (fst u)) end.
(* the nodes of a tree, each with what its children are *)
Definition root (t : ptree) : pval := match t with PNode x _ => x end.
Fixpoint nodes (t : ptree) : list (pval * list item) :=
  match t with PNode x ts => (x, map (fun c => key (root c)) ts) :: flat_map nodes ts end.
Definition within (t : ptree) (x : pval) : Prop := exists cs, In (x, cs) (nodes t).
(* the nodes that have children *)
Definition expanded (t : ptree) : list pval := map fst (filter (fun p => match snd p with [] => false | _ => true end) (nodes t)).

Section Log.
Variable L : log.
(* the outputs whose values pass the test *)
Variable passes : nat -> nat -> Prop.
(* what [x] directly uses, in the order of the log *)
Definition uses1 (x : item) : list item :=
  match x with
  | AnOutput n o =>
      map (fun d => AnOutput (snd (fst d)) (snd d)) (filter (fun d => (fst (fst (fst d)) =? n) && (snd (fst (fst d)) =? o)) (lgDir L)) ++
      map (fun d => AnUpdate n (snd d)) (filter (fun d => (fst (fst d) =? n) && (snd (fst d) =? o)) (lgOutDep L))
  | AnUpdate n u =>
      map (fun d => AnOutput (snd (fst d)) (snd d)) (filter (fun d => (fst (fst (fst d)) =? n) && (snd (fst (fst d)) =? u)) (lgInDep L)) ++
      map (fun d => AnUpdate n (snd d)) (filter (fun d => (fst (fst d) =? n) && (snd (fst d) =? u)) (lgIntDep L))
  end.
Definition open (x : item) : Prop := match x with AnOutput n o => passes n o | AnUpdate _ _ => True end.
Definition goesTo (x y : item) : Prop := open x /\ uses L x y.
(* [y] is reached from [x] through outputs that pass the test *)
Definition seenFrom (x y : item) : Prop := clos_refl_trans item goesTo x y.
(* what is asked of the tree built from [x] *)
Record rightTree (x : item) (t : ptree) : Prop := {
  rt_root : key (root t) = x;
  rt_seen : forall y, (exists v, within t v /\ key v = y) <-> seenFrom x y;
  rt_fun : forall n u f, within t (PU (n, u, f)) -> firstFunction L n u f;
  rt_nodes : forall v cs, In (v, cs) (nodes t) -> cs = [] \/ (open (key v) /\ cs = uses1 (key v));
  rt_open : forall v, within t v -> open (key v) -> In (v, uses1 (key v)) (nodes t);
  rt_once : NoDup (expanded t) }.
End Log.
(* depth of recursion that always suffices *)
Definition depth (L : log) : nat := S (S (length (lgInp L) + length (lgUpd L))).
