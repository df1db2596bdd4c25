(* Model of the exploration of computed values: src/diagnostic/GraphProbe.cpp (listOutputVal, followUp,
   addOutputVal), over the log of LgModel. *)
From Coq Require Import List Bool Arith.
Import ListNotations.
From Verif Require Import Base CallGraphModel NdModel LgModel.
Local Open Scope nat_scope.

Section Probe.
(* matrices, and the variables they are attached to (nullptr is None) *)
Variable M V : Type.
(* the type of a pointer and its promoted type (log_.getPromotedType, Log.cpp:599-606), by their hash codes:
   all the pointers to an object are assumed to have the same type *)
Variables (ptype ptypeUp : nat -> nat).
(* outputAccessor_ and varDepOutputAccessor_ (GraphProbe.h:163-165); a function applied to an address is
   given by its result: the values of the outputs do not change during an exploration *)
Variables (acc : nat -> nat -> option (nat -> M)) (vacc : nat -> nat -> option (nat -> list (V * M))).

Definition oval : Type := out_ * option V * M.
(* GraphProbe::addOutputVal, GraphProbe.cpp:174-203 *)
Definition addOutputVal (ov : list oval) (o : out_) : list oval * bool :=
  match acc (ptypeUp (fst o)) (snd o) with
  | Some f => (ov ++ [(o, None, f (fst o))], true)
  | None =>
  match acc (ptype (fst o)) (snd o) with
  | Some f => (ov ++ [(o, None, f (fst o))], true)
  | None =>
  match vacc (ptypeUp (fst o)) (snd o) with
  | Some f => (ov ++ map (fun p => (o, Some (fst p), snd p)) (f (fst o)), true)
  | None =>
  match vacc (ptype (fst o)) (snd o) with
  | Some f => (ov ++ map (fun p => (o, Some (fst p), snd p)) (f (fst o)), true)
  | None => (ov, false)
  end end end end.
(* outputVal, GraphProbe.cpp:205-210 *)
Definition outputVal (o : out_) : list oval := fst (addOutputVal [] o).
(* listOutputVal(outputs, verbose), GraphProbe.cpp:212-230, without the messages *)
Definition listOutputs (outs : list out_) : list oval := fold_left (fun ret o => fst (addOutputVal ret o)) outs [].
(* listOutputVal, GraphProbe.cpp:105-106 and 108-109 *)
Definition listOutputValG (fuel : nat) (L : log) (g : nat) : res (list oval) := do r <- subGraph fuel L g ; Ok (listOutputs (fst r)).
Definition listOutputVal (fuel : nat) (L : log) (o : out_) : res (list oval) := do r <- subGraphOf fuel L o ; Ok (listOutputs (fst r)).

(* ProbeNode, GraphProbe.h:43-52 *)
Inductive pval := PO (o : out_) | PU (u : upd_).
Inductive ptree := PNode (val : pval) (children : list ptree).
Definition pval_eqb (a b : pval) : bool :=
  match a, b with PO x, PO y => pair_eqb x y | PU x, PU y => upd_eqb x y | _, _ => false end.

Variable select : M -> bool.
(* any and none, GraphProbe.cpp:19-33 *)
Definition any (l : list oval) : bool := existsb (fun v => select (snd v)) l.
Definition none (l : list oval) : bool := forallb (fun v => negb (select (snd v))) l.

(* a loop "for d in l: if(p(d)) node->children.push_back(followUp(f(d), select, processed))" *)
Fixpoint childrenFor {D} (p : D -> bool) (f : D -> res pval) (go : pval -> list pval -> res (ptree * list pval)) (l : list D) (st : list ptree * list pval) : res (list ptree * list pval) :=
  match l with
  | [] => Ok st
  | d :: l' =>
      if p d then do x <- f d ; do r <- go x (snd st) ; childrenFor p f go l' (fst st ++ [fst r], snd r)
      else childrenFor p f go l' st
  end.
Definition asPO (r : res out_) : res pval := do o <- r ; Ok (PO o).
Definition asPU (r : res upd_) : res pval := do u <- r ; Ok (PU u).

(* followUp(o, select, processed) and followUp(u, select, processed), GraphProbe.cpp:231-267 and 269-294,
   without the messages; processed.outputs and processed.updates as the list of the keys that are true,
   findInput, findUpdate, findOutput and findFromUpdate (GraphProbe.cpp:44-97) are those of Log.cpp;
   a recursion deeper than [fuel] is UB *)
Fixpoint followUp (fuel : nat) (L : log) (x : pval) (P : list pval) : res (ptree * list pval) :=
  match fuel with
  | O => UB
  | S f =>
      match x with
      | PO o =>
          if existsb (pval_eqb x) P || none (outputVal o) then Ok (PNode x [], P)
          else
            do s1 <- childrenFor (fun d => (fst (fst (fst d)) =? fst o) && (snd (fst (fst d)) =? snd o))
                       (fun d => asPO (do i <- findInput (lgInp L) (fst (fst (fst d))) (snd (fst d)) (snd d) ; findOutput (allOutputs L) i))
                       (followUp f L) (lgDir L) ([], x :: P) ;
            do s2 <- childrenFor (fun d => (fst (fst d) =? fst o) && (snd (fst d) =? snd o))
                       (fun d => asPU (findUpdate (lgUpd L) (fst (fst d)) (snd d))) (followUp f L) (lgOutDep L) s1 ;
            Ok (PNode x (fst s2), snd s2)
      | PU u =>
          if existsb (pval_eqb x) P then Ok (PNode x [], P)
          else
            do s1 <- childrenFor (fun d => (fst (fst (fst d)) =? fst (fst u)) && (snd (fst (fst d)) =? snd (fst u)))
                       (fun d => asPO (do i <- findInput (lgInp L) (fst (fst (fst d))) (snd (fst d)) (snd d) ; findOutput (allOutputs L) i))
                       (followUp f L) (lgInDep L) ([], x :: P) ;
            do s2 <- childrenFor (fun d => (fst (fst d) =? fst (fst u)) && (snd (fst d) =? snd (fst u)))
                       (fun d => asPU (findUpdate (lgUpd L) (fst (fst d)) (snd d))) (followUp f L) (lgIntDep L) s1 ;
            Ok (PNode x (fst s2), snd s2)
      end
  end.
(* followUp(o, select), GraphProbe.cpp:111-117 *)
Definition followUpOf (fuel : nat) (L : log) (o : out_) : res ptree := do r <- followUp fuel L (PO o) [] ; Ok (fst r).
(* followUp(g, select), GraphProbe.cpp:119-153 *)
Fixpoint followAll (fuel : nat) (L : log) (os : list out_) (ret : list ptree) : res (list ptree) :=
  match os with
  | [] => Ok ret
  | o :: os' => if any (outputVal o) then do r <- followUp fuel L (PO o) [] ; followAll fuel L os' (ret ++ [fst r]) else followAll fuel L os' ret
  end.
Definition followUpG (fuel : nat) (L : log) (g : nat) : res (list ptree) :=
  match filter (fun p => fst p =? g) (lgGraph L) with
  | [] => Throw
  | ps => do s <- startingPoints L (map snd ps) ; followAll fuel L s []
  end.
End Probe.
