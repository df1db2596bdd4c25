(* Model of the drawings of the log: Log::generateDot (three forms), nodeName, getPromotedType (src/graph/Log.cpp, include/tvm/graph/internal/Log.h) and
   the types Logger::registerType (include/tvm/graph/internal/Logger.h) records.  The log itself is the one of LgModel.v.
   Simplifications: a drawing is the list of its statements (the punctuation, the digraph line, rankdir, rank and the default shapes are left
   out, as are the labels of the drawing of one object and of its clusters); a type is a number, [tname] its type_info name and [demangle] is
   __cxa_demangle (its argument when that fails); the names U::OutputName and U::UpdateName give are functions [oName] and [uName] of the owner
   and of the value of the enumeration; the values of the enumerations of an object are ordered as numbers. *)
From Coq Require Import List Bool Arith String Ascii DecimalString.
Import ListNotations.
From Verif Require Import Base CallGraphModel NdModel LgModel.
Local Open Scope nat_scope.
Local Open Scope list_scope.

(* ---- types_ ---- *)
(* Logger::registerType, Logger.h:158-172, when the logger is enabled; types_ is a std::map: sorted by address (Log.h:224-232) *)
Fixpoint regType (v t : nat) (m : list (nat * list nat)) : list (nat * list nat) :=
  match m with
  | [] => [(v, [t])]
  | (v', ts) :: m' =>
      if v =? v' then (v', if existsb (Nat.eqb t) ts then ts else ts ++ [t]) :: m'
      else if v <? v' then (v, [t]) :: m
      else (v', ts) :: regType v t m'
  end.
(* a call of the logger with the dynamic types of the node and of the source at that time *)
Record tev := mkTE { te_ev : logev; te_node : nat; te_source : nat }.
Record tlog := mkTL { tl_log : log; tl_types : list (nat * list nat) }.
(* Logger.h:83-156 and Logger.cpp:26-32, when the logger is enabled *)
Definition tellT (L : tlog) (e : tev) : tlog :=
  mkTL (tell (tl_log L) (te_ev e))
    (match te_ev e with
     | EUpdate n _ _ | EOutputDep n _ _ | EInternalDep n _ _ => regType n (te_node e) (tl_types L)
     | EInput n s _ | EInputDep n _ s _ | EDirectDep n _ s _ => regType s (te_source e) (regType n (te_node e) (tl_types L))
     | EGraph _ _ => tl_types L
     end).
Definition tlogOf (evs : list tev) : tlog := fold_left tellT evs (mkTL log0 []).
Fixpoint assocN {A} (v : nat) (m : list (nat * A)) : option A :=
  match m with [] => None | (v', a) :: m' => if v =? v' then Some a else assocN v m' end.
(* back() of a vector: UB if it is empty *)
Definition back (ts : list nat) : res nat := match rev ts with t :: _ => Ok t | [] => UB end.
(* types_.at(value).back(), Log.cpp:682, 689 and 696 *)
Definition typeAt (m : list (nat * list nat)) (v : nat) : res nat := match assocN v m with Some ts => back ts | None => Throw end.
(* getPromotedType, Log.cpp:599-606, of a Pointer (type, value) *)
Definition getPromotedType (m : list (nat * list nat)) (t v : nat) : res nat := match assocN v m with Some ts => back ts | None => Ok t end.

(* ---- names ---- *)
(* replaceSpaces and replaceColons, Log.cpp:21-40 *)
Fixpoint replaceChar (a b : ascii) (s : string) : string :=
  match s with EmptyString => EmptyString | String c s' => String (if Ascii.eqb c a then b else c) (replaceChar a b s') end.
(* removeNamespace, Log.cpp:43-57: for each name, the first occurrence *)
Definition namespaces : list string := ["tvm"; "constraint"; "function"; "graph"; "scheme"; "task_dynamics"; "utils"; "abstract"; "internal"]%string.
Definition removeOne (res s : string) : string :=
  match String.index 0 (String.append s "::") res with
  | Some i => String.append (String.substring 0 i res)
                (String.substring (i + String.length s + 2) (String.length res - (i + String.length s + 2)) res)
  | None => res
  end.
Definition removeNamespace (name : string) : string := fold_left removeOne namespaces name.

Section Names.
Variable demangle : string -> string.
Variable tname : nat -> string.
Variables oName uName : nat -> nat -> string.

(* clean, Log.cpp:118-128 *)
Definition clean (colons : bool) (name : string) : string :=
  let s := replaceChar " " "_" (removeNamespace (demangle name)) in if colons then replaceChar ":" "_" s else s.
(* nodeName of outputs, inputs and updates, Log.cpp:679-698; a std::uintptr_t is written in base ten *)
Inductive kind := KOut | KIn | KUp.
Definition suffix (k : kind) : string := match k with KOut => "_out" | KIn => "_in" | KUp => "_up" end.
Definition nodeName (m : list (nat * list nat)) (k : kind) (v : nat) (name : string) : res string :=
  do t <- typeAt m v ;
  Ok (String.append (clean true (tname t)) (String.append (NilZero.string_of_uint (Nat.to_uint v)) (String.append (suffix k) (clean true name)))).
Definition outName (m : list (nat * list nat)) (o : out_) : res string := nodeName m KOut (fst o) (oName (fst o) (snd o)).
Definition inName (m : list (nat * list nat)) (i : nat * nat * nat) : res string := nodeName m KIn (snd (fst i)) (oName (snd (fst i)) (snd i)).
Definition upName (m : list (nat * list nat)) (u : upd_) : res string := nodeName m KUp (fst (fst u)) (uName (fst (fst u)) (snd (fst u))).

(* ---- sets ---- *)
(* lexLess, Log.h:31-50, of the lists of the members *)
Fixpoint lexLess (a b : list nat) : bool :=
  match a, b with x :: a', y :: b' => (x <? y) || ((x =? y) && lexLess a' b') | _, _ => false end.
(* std::set::insert: sorted, an element equivalent to one that is there is not inserted *)
Fixpoint insert {A} (key : A -> list nat) (x : A) (l : list A) : list A :=
  match l with
  | [] => [x]
  | y :: l' => if lexLess (key x) (key y) then x :: l else if lexLess (key y) (key x) then y :: insert key x l' else l
  end.
Definition setOf {A} (key : A -> list nat) (l : list A) : list A := fold_left (fun s x => insert key x s) l [].
(* Log.h:96-97, 108 and 119-120 *)
Definition updKey (u : upd_) : list nat := [fst (fst u); snd (fst u); snd u].
Definition outKey (o : out_) : list nat := [fst o; snd o].
Definition inpKey (i : nat * nat * nat) : list nat := [fst (fst i); snd i; snd (fst i)].

(* ---- statements ---- *)
Inductive stmt :=
| SCluster (c : nat) (label : string)             (* subgraph cluster<c>; label, left empty in the drawing of one object *)
| SIn (name label : string)
| SUp (name label : string) (orange : bool)
| SOut (name label : string) (diamond orange : bool) (* Mdiamond, otherwise octagon *)
| SEdge (from to : string) (orange : bool).
Fixpoint mapM {A B} (f : A -> res B) (l : list A) : res (list B) :=
  match l with [] => Ok [] | x :: l' => do y <- f x ; do ys <- mapM f l' ; Ok (y :: ys) end.

Variable T : tlog.
Let L := tl_log T.
Let types := tl_types T.

(* the elements by owner or source: Log.cpp:459-486, where outputs not referred to by an update come from the inputs *)
Definition outputsOf (v : nat) : list out_ := setOf outKey (filter (fun o => fst o =? v) (allOutputs L)).
Definition updatesOf (v : nat) : list upd_ := setOf updKey (filter (fun u => fst (fst u) =? v) (lgUpd L)).
Definition inputsFrom (v : nat) : list (nat * nat * nat) := setOf inpKey (filter (fun i => snd (fst i) =? v) (lgInp L)).
Definition isAlsoInput (o : out_) : bool := existsb (fun i => pair_eqb (snd (fst i), snd i) o) (lgInp L).
(* findUpdate (Log.cpp:159-169 and 172-183), findFromUpdate (186-197) and findToUpdate (200-210) are [LgModel.findUpdate] *)
(* findOutput, Log.cpp:213-223 and 226-236 *)
Definition findOut (l : list out_) (owner output : nat) : res out_ := findR (fun o => (fst o =? owner) && (snd o =? output)) l.

(* the whole graph with highlighted elements, Log.cpp:448-597 *)
Section Whole.
Variable oh : list out_.
Variable uh : list upd_.
(* oh[o] and uh[u], Log.cpp:488-496 *)
Definition litO (o : out_) : bool := existsb (pair_eqb o) oh.
Definition litU (u : upd_) : bool := existsb (upd_eqb u) uh.
Definition drawUp (u : upd_) : res stmt := do n <- upName types u ; Ok (SUp n (clean true (uName (fst (fst u)) (snd (fst u)))) (litU u)).
Definition drawOut (o : out_) : res stmt := do n <- outName types o ; Ok (SOut n (clean true (oName (fst o) (snd o))) (isAlsoInput o) (litO o)).
(* the loop on the objects, Log.cpp:505-542 *)
Fixpoint drawObjects (c : nat) (m : list (nat * list nat)) : res (list stmt) :=
  match m with
  | [] => Ok []
  | (v, ts) :: m' =>
      do t <- back ts ;
      do us <- mapM drawUp (updatesOf v) ;
      do os <- mapM drawOut (outputsOf v) ;
      do rest <- drawObjects (S c) m' ;
      Ok (SCluster c (clean false (tname t)) :: us ++ os ++ rest)
  end.
(* input - update, Log.cpp:544-556 *)
Definition edgeIn (d : nat * nat * nat * nat) : res stmt :=
  let '(n, u, s, i) := d in
  do x <- findInput (inputsFrom s) n s i ;
  do y <- findUpdate (updatesOf n) n u ;
  do a <- outName types (snd (fst x), snd x) ; do b <- upName types y ;
  Ok (SEdge a b (litO (snd (fst x), snd x) && litU y)).
(* update - output, Log.cpp:558-569 *)
Definition edgeOut (d : nat * nat * nat) : res stmt :=
  let '(n, o, u) := d in
  do y <- findUpdate (updatesOf n) n u ;
  do x <- findOut (outputsOf n) n o ;
  do a <- upName types y ; do b <- outName types x ;
  Ok (SEdge a b (litO x && litU y)).
(* update - update, Log.cpp:571-582: the update depended upon comes first *)
Definition edgeInt (d : nat * nat * nat) : res stmt :=
  let '(n, ud, u) := d in
  do y <- findUpdate (updatesOf n) n u ;
  do z <- findUpdate (updatesOf n) n ud ;
  do a <- upName types y ; do b <- upName types z ;
  Ok (SEdge a b (litU y && litU z)).
(* input - output, Log.cpp:584-596 *)
Definition edgeDir (d : nat * nat * nat * nat) : res stmt :=
  let '(n, o, s, i) := d in
  do x <- findInput (inputsFrom s) n s i ;
  do y <- findOut (outputsOf n) n o ;
  do a <- outName types (snd (fst x), snd x) ; do b <- outName types y ;
  Ok (SEdge a b (litO (snd (fst x), snd x) && litO y)).
Definition generateDot : res (list stmt) :=
  do ns <- drawObjects 1 types ;
  do e1 <- mapM edgeIn (lgInDep L) ;
  do e2 <- mapM edgeOut (lgOutDep L) ;
  do e3 <- mapM edgeInt (lgIntDep L) ;
  do e4 <- mapM edgeDir (lgDir L) ;
  Ok (ns ++ e1 ++ e2 ++ e3 ++ e4).
End Whole.

(* generateDot(const CallGraph * const g), Log.cpp:435-446: the empty string is the drawing without statement *)
Definition generateDotOf (fuel g : nat) : res (list stmt) :=
  do r <- subGraph fuel L g ;
  match r with
  | ([], []) => Ok []
  | (outs, upds) => generateDot outs upds
  end.

(* one object, Log.cpp:310-433 *)
Section One.
Variable p : nat.
Definition myInputs (s : nat) : list (nat * nat * nat) := setOf inpKey (filter (fun i => (fst (fst i) =? p) && (snd (fst i) =? s)) (lgInp L)).
(* the keys of inputs, a std::map<Pointer, std::set<Input>> *)
Definition mySources : list nat := setOf (fun s => [s]) (map (fun i => snd (fst i)) (filter (fun i => fst (fst i) =? p) (lgInp L))).
Definition draw1In (i : nat * nat * nat) : res stmt := do n <- inName types i ; Ok (SIn n (clean true (oName (snd (fst i)) (snd i)))).
Definition draw1Up (u : upd_) : res stmt := do n <- upName types u ; Ok (SUp n (clean true (uName (fst (fst u)) (snd (fst u)))) false).
Definition draw1Out (o : out_) : res stmt := do n <- outName types o ; Ok (SOut n (clean true (oName (fst o) (snd o))) false false).
(* Log.cpp:356-367 *)
Fixpoint drawSources (c : nat) (l : list nat) : res (list stmt) :=
  match l with
  | [] => Ok []
  | s :: l' => do is_ <- mapM draw1In (myInputs s) ; do rest <- drawSources (S c) l' ; Ok (SCluster c EmptyString :: is_ ++ rest)
  end.
(* Log.cpp:388-396 *)
Definition edge1In (d : nat * nat * nat * nat) : res stmt :=
  let '(n, u, s, i) := d in
  do x <- findInput (myInputs s) n s i ; do y <- findUpdate (updatesOf p) n u ;
  do a <- inName types x ; do b <- upName types y ; Ok (SEdge a b false).
(* Log.cpp:399-407 *)
Definition edge1Out (d : nat * nat * nat) : res stmt :=
  let '(n, o, u) := d in
  do y <- findUpdate (updatesOf p) n u ; do x <- findOut (outputsOf p) n o ;
  do a <- upName types y ; do b <- outName types x ; Ok (SEdge a b false).
(* Log.cpp:410-418 *)
Definition edge1Int (d : nat * nat * nat) : res stmt :=
  let '(n, ud, u) := d in
  do y <- findUpdate (updatesOf p) n u ; do z <- findUpdate (updatesOf p) n ud ;
  do a <- upName types y ; do b <- upName types z ; Ok (SEdge a b false).
(* Log.cpp:421-429 *)
Definition edge1Dir (d : nat * nat * nat * nat) : res stmt :=
  let '(n, o, s, i) := d in
  do x <- findInput (myInputs s) n s i ; do y <- findOut (outputsOf p) n o ;
  do a <- inName types x ; do b <- outName types y ; Ok (SEdge a b false).
Definition owner4 (d : nat * nat * nat * nat) : nat := fst (fst (fst d)).
Definition owner3 (d : nat * nat * nat) : nat := fst (fst d).
Definition generateDot1 : res (list stmt) :=
  do is_ <- drawSources 0 mySources ;
  do us <- mapM draw1Up (updatesOf p) ;
  do os <- mapM draw1Out (outputsOf p) ;
  do e1 <- mapM edge1In (filter (fun d => owner4 d =? p) (lgInDep L)) ;
  do e2 <- mapM edge1Out (filter (fun d => owner3 d =? p) (lgOutDep L)) ;
  do e3 <- mapM edge1Int (filter (fun d => owner3 d =? p) (lgIntDep L)) ;
  do e4 <- mapM edge1Dir (filter (fun d => owner4 d =? p) (lgDir L)) ;
  Ok (is_ ++ us ++ os ++ e1 ++ e2 ++ e3 ++ e4).
End One.
End Names.
