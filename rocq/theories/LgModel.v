(* Model of the log of declarations and of the walks through it:
   include/tvm/graph/internal/Log.h, include/tvm/graph/internal/Logger.h, src/graph/Logger.cpp and
   src/graph/Log.cpp (subGraph, followUpDependency).
   A Pointer is its address (Log.h:85-86 compare nothing else), an EnumValue is the integer value of the
   enumeration: for one owner or source the enumerations of its classes have different values.  An object
   is assumed to have the same address through all the classes it is logged by.  Names and
   types (types_, getPromotedType) only serve the printing and are left out. *)
From Coq Require Import List Bool Arith.
Import ListNotations.
From Verif Require Import Base CallGraphModel NdModel.
Local Open Scope nat_scope.

(* The raw log, Log.h:210-222; graphOutputs_ as the pairs (graph, inputs) in the order they were logged. *)
Record log := mkLog {
  lgUpd : list (nat * nat * nat);         (* owner, update, function: Log.h:90-100 *)
  lgInp : list (nat * nat * nat);         (* owner, source, input: Log.h:113-122 *)
  lgOut : list (nat * nat);               (* owner, output: Log.h:103-110 *)
  lgInDep : list (nat * nat * nat * nat); (* owner, update, source, input: Log.h:125-141 *)
  lgOutDep : list (nat * nat * nat);      (* owner, output, update: Log.h:144-153 *)
  lgIntDep : list (nat * nat * nat);      (* owner, depending update, update: Log.h:156-165 *)
  lgDir : list (nat * nat * nat * nat);   (* owner, output, source, input: Log.h:168-184 *)
  lgGraph : list (nat * nat) }.
Definition log0 : log := mkLog [] [] [] [] [] [] [] [].

(* Logger::registerUpdate, addInput, addOutputDependency, addInternalDependency, addInputDependency,
   addDirectDependency (Logger.h:83-156) and addGraphOutput (Logger.cpp:26-32), when the logger is enabled *)
Definition tell (L : log) (e : logev) : log :=
  match e with
  | EUpdate n u f => mkLog (lgUpd L ++ [(n, u, f)]) (lgInp L) (lgOut L) (lgInDep L) (lgOutDep L) (lgIntDep L) (lgDir L) (lgGraph L)
  | EInput n s i => mkLog (lgUpd L) (lgInp L ++ [(n, s, i)]) (lgOut L) (lgInDep L) (lgOutDep L) (lgIntDep L) (lgDir L) (lgGraph L)
  | EOutputDep n o u => mkLog (lgUpd L) (lgInp L) (lgOut L ++ [(n, o)]) (lgInDep L) (lgOutDep L ++ [(n, o, u)]) (lgIntDep L) (lgDir L) (lgGraph L)
  | EInternalDep n ud u => mkLog (lgUpd L) (lgInp L) (lgOut L) (lgInDep L) (lgOutDep L) (lgIntDep L ++ [(n, ud, u)]) (lgDir L) (lgGraph L)
  | EInputDep n u s i => mkLog (lgUpd L) (lgInp L) (lgOut L) (lgInDep L ++ [(n, u, s, i)]) (lgOutDep L) (lgIntDep L) (lgDir L) (lgGraph L)
  | EDirectDep n o s i => mkLog (lgUpd L) (lgInp L) (lgOut L ++ [(n, o)]) (lgInDep L) (lgOutDep L) (lgIntDep L) (lgDir L ++ [(n, o, s, i)]) (lgGraph L)
  | EGraph g n => mkLog (lgUpd L) (lgInp L) (lgOut L) (lgInDep L) (lgOutDep L) (lgIntDep L) (lgDir L) (lgGraph L ++ [(g, n)])
  end.

(* The logger: its log and disabled_ (Logger.h:69-70; false in the beginning, new Logger() of Logger.cpp:18
   zero-initialises it); enable and disable are Logger.cpp:22-24. *)
Inductive lop := LDisable | LEnable | LTell (e : logev).
Definition lexec (s : log * bool) (o : lop) : log * bool :=
  match o with
  | LDisable => (fst s, true)
  | LEnable => (fst s, false)
  | LTell e => if snd s then s else (tell (fst s) e, false)
  end.
Definition lrun (h : list lop) : log * bool := fold_left lexec h (log0, false).

(* an output is (owner, id): Log.h:108-109; an update (owner, id, function): Log.h:96-99 *)
Definition out_ : Type := nat * nat.
Definition upd_ : Type := nat * nat * nat.
Definition upd_eqb (a b : upd_) : bool := pair_eqb (fst a) (fst b) && (snd a =? snd b).

(* the first element with the property, or an exception *)
Definition findR {A} (p : A -> bool) (l : list A) : res A := match find p l with Some x => Ok x | None => Throw end.
(* findInput, Log.cpp:130-142 and 144-156 *)
Definition findInput (l : list (nat * nat * nat)) (owner source input : nat) : res (nat * nat * nat) :=
  findR (fun i => (fst (fst i) =? owner) && (snd i =? input) && (snd (fst i) =? source)) l.
(* findUpdate (Log.cpp:171-183) and findFromUpdate (Log.cpp:185-197) *)
Definition findUpdate (l : list upd_) (owner update : nat) : res upd_ :=
  findR (fun u => (fst (fst u) =? owner) && (snd (fst u) =? update)) l.
(* findOutput, Log.cpp:238-249 *)
Definition findOutput (v : list out_) (i : nat * nat * nat) : res out_ :=
  findR (fun o => (fst o =? snd (fst i)) && (snd o =? snd i)) v.

(* outputs_ and the outputs only referred to as sources, Log.cpp:275-280 and 299-304 *)
Definition allOutputs (L : log) : list out_ := lgOut L ++ map (fun i => (snd (fst i), snd i)) (lgInp L).

(* a loop "for d in l: if(p(d)) stack.push_back(f(d))"; the top of a stack is the head of the list *)
Fixpoint pushFor {D X} (p : D -> bool) (f : D -> res X) (l : list D) (stack : list X) : res (list X) :=
  match l with
  | [] => Ok stack
  | d :: l' => if p d then do x <- f d ; pushFor p f l' (x :: stack) else pushFor p f l' stack
  end.

(* the variables of followUpDependency, Log.cpp:612-619; the maps processed... as the lists of the keys that are true *)
Record walk := mkW { wOuts : list out_; wUpds : list upd_; wPO : list out_; wPU : list upd_; wOS : list out_; wUS : list upd_ }.

(* Log.cpp:624-648 *)
Definition stepOut (L : log) (all : list out_) (w : walk) : res walk :=
  match wOS w with
  | [] => Ok w
  | o :: os =>
      if existsb (pair_eqb o) (wPO w) then Ok (mkW (wOuts w) (wUpds w) (wPO w) (wPU w) os (wUS w))
      else
        do us <- pushFor (fun d => (fst (fst d) =? fst o) && (snd (fst d) =? snd o)) (fun d => findUpdate (lgUpd L) (fst (fst d)) (snd d)) (lgOutDep L) (wUS w) ;
        do os' <- pushFor (fun d => (fst (fst (fst d)) =? fst o) && (snd (fst (fst d)) =? snd o))
                    (fun d => do i <- findInput (lgInp L) (fst (fst (fst d))) (snd (fst d)) (snd d) ; findOutput all i) (lgDir L) os ;
        Ok (mkW (wOuts w ++ [o]) (wUpds w) (o :: wPO w) (wPU w) os' us)
  end.
(* Log.cpp:650-674 *)
Definition stepUpd (L : log) (all : list out_) (w : walk) : res walk :=
  match wUS w with
  | [] => Ok w
  | u :: us =>
      if existsb (upd_eqb u) (wPU w) then Ok (mkW (wOuts w) (wUpds w) (wPO w) (wPU w) (wOS w) us)
      else
        do os <- pushFor (fun d => (fst (fst (fst d)) =? fst (fst u)) && (snd (fst (fst d)) =? snd (fst u)))
                   (fun d => do i <- findInput (lgInp L) (fst (fst (fst d))) (snd (fst d)) (snd d) ; findOutput all i) (lgInDep L) (wOS w) ;
        do us' <- pushFor (fun d => (fst (fst d) =? fst (fst u)) && (snd (fst d) =? snd (fst u))) (fun d => findUpdate (lgUpd L) (fst (fst d)) (snd d)) (lgIntDep L) us ;
        Ok (mkW (wOuts w) (wUpds w ++ [u]) (wPO w) (u :: wPU w) os us')
  end.
(* followUpDependency, Log.cpp:608-677; a loop that does not end within [fuel] turns is UB *)
Fixpoint walkLoop (fuel : nat) (L : log) (all : list out_) (w : walk) : res (list out_ * list upd_) :=
  match wOS w, wUS w with
  | [], [] => Ok (wOuts w, wUpds w)
  | _, _ =>
      match fuel with
      | O => UB
      | S f => do w1 <- stepOut L all w ; do w2 <- stepUpd L all w1 ; walkLoop f L all w2
      end
  end.
Definition followUpDependency (fuel : nat) (L : log) (all starting : list out_) : res (list out_ * list upd_) :=
  walkLoop fuel L all (mkW [] [] [] [] (rev starting) []).

(* subGraph(const Output out), Log.cpp:297-308 *)
Definition subGraphOf (fuel : nat) (L : log) (o : out_) : res (list out_ * list upd_) := followUpDependency fuel L (allOutputs L) [o].
(* Log.cpp:282-293 *)
Definition startingPoints (L : log) (ps : list nat) : res (list out_) :=
  do l <- pushFor (fun _ => true) (fun i => findOutput (allOutputs L) i)
            (flat_map (fun p => filter (fun i => fst (fst i) =? p) (lgInp L)) ps) [] ; Ok (rev l).
(* subGraph(const CallGraph * const g), Log.cpp:267-295 *)
Definition subGraph (fuel : nat) (L : log) (g : nat) : res (list out_ * list upd_) :=
  match filter (fun p => fst p =? g) (lgGraph L) with
  | [] => Ok ([], [])
  | ps => do s <- startingPoints L (map snd ps) ; followUpDependency fuel L (allOutputs L) s
  end.
