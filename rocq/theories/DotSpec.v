(* What C75 speaks about. *)
From Coq Require Import List Bool Arith String Ascii DecimalString.
Import ListNotations.
From Verif Require Import Base CallGraphModel NdModel LgModel LgSpec DotModel.
Local Open Scope nat_scope.
Local Open Scope list_scope.

(* the (object, type) pairs told by the calls, in order *)
Definition told (e : tev) : list (nat * nat) :=
  match te_ev e with
  | EUpdate n _ _ | EOutputDep n _ _ | EInternalDep n _ _ => [(n, te_node e)]
  | EInput n s _ | EInputDep n _ s _ | EDirectDep n _ s _ => [(n, te_node e); (s, te_source e)]
  | EGraph _ _ => []
  end.
Definition allTold (evs : list tev) : list (nat * nat) := flat_map told evs.
(* [t] is the last type to have appeared at the address [v] *)
Definition lastNewType (evs : list tev) (v t : nat) : Prop :=
  exists l1 l2, allTold evs = l1 ++ (v, t) :: l2 /\ ~ In (v, t) l1 /\ forall t', In (v, t') l2 -> In (v, t') (l1 ++ [(v, t)]).

Definition theLog (evs : list tev) : log := logOf (map te_ev evs).
Section Drawing.
Variable L : log.
(* an output: declared by its node, or used as an input *)
Definition isOutput (n o : nat) : Prop := In (n, o) (lgOut L) \/ exists m, In (m, n, o) (lgInp L).
(* all the updates and inputs the dependencies refer to were logged *)
Definition complete : Prop :=
  (forall n u s i, In (n, u, s, i) (lgInDep L) -> In (n, s, i) (lgInp L) /\ exists f, In (n, u, f) (lgUpd L)) /\
  (forall n o u, In (n, o, u) (lgOutDep L) -> exists f, In (n, u, f) (lgUpd L)) /\
  (forall n ud u, In (n, ud, u) (lgIntDep L) -> (exists f, In (n, u, f) (lgUpd L)) /\ exists f, In (n, ud, f) (lgUpd L)) /\
  (forall n o s i, In (n, o, s, i) (lgDir L) -> In (n, s, i) (lgInp L)).
(* those of the object p *)
Definition completeFor (p : nat) : Prop :=
  (forall u s i, In (p, u, s, i) (lgInDep L) -> In (p, s, i) (lgInp L) /\ exists f, In (p, u, f) (lgUpd L)) /\
  (forall o u, In (p, o, u) (lgOutDep L) -> exists f, In (p, u, f) (lgUpd L)) /\
  (forall ud u, In (p, ud, u) (lgIntDep L) -> (exists f, In (p, u, f) (lgUpd L)) /\ exists f, In (p, ud, f) (lgUpd L)) /\
  (forall o s i, In (p, o, s, i) (lgDir L) -> In (p, s, i) (lgInp L)).
(* the update is highlighted, by the least of its functions *)
Definition litLeast (uh : list (nat * nat * nat)) (n u : nat) : Prop :=
  exists f, In (n, u, f) (lgUpd L) /\ (forall g, In (n, u, g) (lgUpd L) -> f <= g) /\ In (n, u, f) uh.
(* every update has one function *)
Definition oneFunction : Prop := forall n u f g, In (n, u, f) (lgUpd L) -> In (n, u, g) (lgUpd L) -> f = g.
End Drawing.

(* the elements of lists *)
Definition inOuts (oh : list (nat * nat)) (n o : nat) : Prop := In (n, o) oh.
Definition inUpds (uh : list (nat * nat * nat)) (n u f : nat) : Prop := In (n, u, f) uh.
(* the statements of a drawing *)
Definition isCluster (s : stmt) : bool := match s with SCluster _ _ => true | _ => false end.
Definition isOut (s : stmt) : bool := match s with SOut _ _ _ _ => true | _ => false end.
Definition isUp (s : stmt) : bool := match s with SUp _ _ _ => true | _ => false end.
Definition isIn (s : stmt) : bool := match s with SIn _ _ => true | _ => false end.
Definition isEdge (s : stmt) : bool := match s with SEdge _ _ _ => true | _ => false end.

Section Names.
Variable nm : kind -> nat -> nat -> string. (* names of the nodes: kind, owner or source, id *)
Variable lbl : kind -> nat -> nat -> string.
(* what is highlighted: outputs, updates with their functions, updates as ends of arrows *)
Variable lo : nat -> nat -> Prop.
Variable lu : nat -> nat -> nat -> Prop.
Variable la : nat -> nat -> Prop.
Variable L : log.

(* the statement of an output, of an update *)
Definition outStmt (x : nat * nat) (s : stmt) : Prop :=
  let (n, o) := x in exists dia orange, s = SOut (nm KOut n o) (lbl KOut n o) dia orange /\
    (dia = true <-> exists m, In (m, n, o) (lgInp L)) /\ (orange = true <-> lo n o).
Definition upStmt (x : nat * nat * nat) (s : stmt) : Prop :=
  let '(n, u, f) := x in exists orange, s = SUp (nm KUp n u) (lbl KUp n u) orange /\ (orange = true <-> lu n u f).
(* the arrows of the dependencies *)
Definition inEdge (d : nat * nat * nat * nat) (s : stmt) : Prop :=
  let '(n, u, s0, i) := d in exists orange, s = SEdge (nm KOut s0 i) (nm KUp n u) orange /\ (orange = true <-> lo s0 i /\ la n u).
Definition outEdge (d : nat * nat * nat) (s : stmt) : Prop :=
  let '(n, o, u) := d in exists orange, s = SEdge (nm KUp n u) (nm KOut n o) orange /\ (orange = true <-> lo n o /\ la n u).
Definition intEdge (d : nat * nat * nat) (s : stmt) : Prop :=
  let '(n, ud, u) := d in exists orange, s = SEdge (nm KUp n u) (nm KUp n ud) orange /\ (orange = true <-> la n u /\ la n ud).
Definition dirEdge (d : nat * nat * nat * nat) (s : stmt) : Prop :=
  let '(n, o, s0, i) := d in exists orange, s = SEdge (nm KOut s0 i) (nm KOut n o) orange /\ (orange = true <-> lo s0 i /\ lo n o).
(* the drawing shows every output and every update once, and the dependencies, as many times as they were declared *)
Definition shows (d : list stmt) : Prop :=
  (exists outs, NoDup outs /\ (forall n o, In (n, o) outs <-> isOutput L n o) /\ Forall2 outStmt outs (filter isOut d)) /\
  (exists upds, NoDup upds /\ (forall x, In x upds <-> In x (lgUpd L)) /\ Forall2 upStmt upds (filter isUp d)) /\
  filter isIn d = [] /\
  exists e1 e2 e3 e4, filter isEdge d = e1 ++ e2 ++ e3 ++ e4 /\
    Forall2 inEdge (lgInDep L) e1 /\ Forall2 outEdge (lgOutDep L) e2 /\ Forall2 intEdge (lgIntDep L) e3 /\ Forall2 dirEdge (lgDir L) e4.

(* the same for one object: its inputs, updates, outputs and dependencies *)
Definition shows1 (p : nat) (d : list stmt) : Prop :=
  (exists ins, NoDup ins /\ (forall s i, In (s, i) ins <-> In (p, s, i) (lgInp L)) /\
     filter isIn d = map (fun x => SIn (nm KIn (fst x) (snd x)) (lbl KIn (fst x) (snd x))) ins) /\
  (exists outs, NoDup outs /\ (forall o, In o outs <-> isOutput L p o) /\ filter isOut d = map (fun o => SOut (nm KOut p o) (lbl KOut p o) false false) outs) /\
  (exists upds, NoDup upds /\ (forall u f, In (u, f) upds <-> In (p, u, f) (lgUpd L)) /\
     filter isUp d = map (fun x => SUp (nm KUp p (fst x)) (lbl KUp p (fst x)) false) upds) /\
  filter isEdge d =
    flat_map (fun d => let '(n, u, s, i) := d in if n =? p then [SEdge (nm KIn s i) (nm KUp p u) false] else []) (lgInDep L) ++
    flat_map (fun d => let '(n, o, u) := d in if n =? p then [SEdge (nm KUp p u) (nm KOut p o) false] else []) (lgOutDep L) ++
    flat_map (fun d => let '(n, ud, u) := d in if n =? p then [SEdge (nm KUp p u) (nm KUp p ud) false] else []) (lgIntDep L) ++
    flat_map (fun d => let '(n, o, s, i) := d in if n =? p then [SEdge (nm KIn s i) (nm KOut p o) false] else []) (lgDir L).
End Names.

(* [nm] gives the names written as in Log.h:239-250: the type and the address of the owner, the kind and the name *)
Definition named (demangle : string -> string) (tname : nat -> string) (oName uName : nat -> nat -> string) (evs : list tev)
    (nm lbl : kind -> nat -> nat -> string) : Prop :=
  (forall k v i, lbl k v i = clean demangle true (match k with KUp => uName v i | _ => oName v i end)) /\
  (forall k v i t, lastNewType evs v t ->
     nm k v i = String.append (clean demangle true (tname t))
                  (String.append (NilZero.string_of_uint (Nat.to_uint v)) (String.append (suffix k) (lbl k v i)))).
(* one cluster per object, numbered from 1, labelled by its type *)
Definition clusters (demangle : string -> string) (tname : nat -> string) (evs : list tev) (d : list stmt) : Prop :=
  exists objs, NoDup objs /\ (forall v, In v objs <-> exists t, In (v, t) (allTold evs)) /\
  Forall2 (fun p s => exists t, lastNewType evs (snd p) t /\ s = SCluster (fst p) (clean demangle false (tname t))) (combine (seq 1 (List.length objs)) objs) (filter isCluster d).
(* characters of a string *)
Fixpoint chars (s : string) : list ascii := match s with EmptyString => [] | String c s' => c :: chars s' end.
Definition isDigit (c : ascii) : bool := (48 <=? nat_of_ascii c) && (nat_of_ascii c <=? 57).

(* the namespaces that do not appear in the drawings *)
Definition listed : list string := ["tvm"; "constraint"; "function"; "graph"; "scheme"; "task_dynamics"; "utils"; "abstract"; "internal"]%string.
