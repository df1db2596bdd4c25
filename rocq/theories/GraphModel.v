(* Model of tvm::graph::internal::DependencyGraph, src/graph/DependencyGraph.cpp and
   include/tvm/graph/internal/DependencyGraph.h.
   std::vector is [list], size_t is [nat], int is [Z] (no overflow); std::set<pair> is a
   list sorted lexicographically. A violated assert and an index out of a vector give
   [UB]; std::logic_error is [Throw]. Recursive functions take [fuel]; running out of it
   is [UB] (shown impossible). *)
Require Import ZArith List Bool Arith.
Require Import Verif.Base.
Import ListNotations.

Definition nthR {A} (l : list A) (i : nat) : res A :=
  match nth_error l i with Some x => Ok x | None => UB end.
Fixpoint setN {A} (l : list A) (i : nat) (x : A) : list A :=
  match l, i with
  | [], _ => []
  | _ :: r, O => x :: r
  | y :: r, S j => y :: setN r j x
  end.
(* vector::erase(begin() + i) *)
Definition delN {A} (i : nat) (l : list A) : list A := firstn i l ++ skipn (S i) l.

(* ---------- DisjointSet, DependencyGraph.h:57-98 ---------- *)
Record ds := mkDS { parent_ : list nat; rank_ : list nat }.

(* DependencyGraph.cpp:12-25 (constructor and resize: all elements are reset) *)
Definition ds_init (n : nat) : ds := mkDS (seq 0 n) (repeat 0 n).

(* DependencyGraph.cpp:27-35 *)
Fixpoint ds_rootF (fuel : nat) (d : ds) (x : nat) : res nat :=
  do p <- nthR (parent_ d) x;
  if Nat.eqb x p then Ok p
  else match fuel with O => UB | S f => ds_rootF f d p end.
Definition ds_root (d : ds) (x : nat) : res nat := ds_rootF (length (parent_ d)) d x.

(* DependencyGraph.cpp:37-45 *)
Fixpoint ds_comprF (fuel : nat) (d : ds) (x : nat) : res (ds * nat) :=
  do p <- nthR (parent_ d) x;
  if Nat.eqb x p then Ok (d, p)
  else match fuel with
       | O => UB
       | S f =>
           do (d1, r) <- ds_comprF f d p;
           Ok (mkDS (setN (parent_ d1) x r) (rank_ d1), r)
       end.
Definition ds_rootCompr (d : ds) (x : nat) : res (ds * nat) := ds_comprF (length (parent_ d)) d x.

(* DependencyGraph.cpp:47-70 *)
Definition ds_unify (d : ds) (a b : nat) : res ds :=
  do (d1, ra) <- ds_rootCompr d a;
  do (d2, rb) <- ds_rootCompr d1 b;
  if Nat.eqb ra rb then Ok d2
  else
    do ka <- nthR (rank_ d2) ra;
    do kb <- nthR (rank_ d2) rb;
    if Nat.ltb ka kb then Ok (mkDS (setN (parent_ d2) ra rb) (rank_ d2))
    else if Nat.ltb kb ka then Ok (mkDS (setN (parent_ d2) rb ra) (rank_ d2))
    else Ok (mkDS (setN (parent_ d2) rb ra) (setN (rank_ d2) ra (S ka))).

(* DependencyGraph.cpp:72-76 *)
Definition ds_isRoot (d : ds) (i : nat) : res bool :=
  do p <- nthR (parent_ d) i; Ok (Nat.eqb p i).

(* A sequence of calls to unify. *)
Fixpoint ds_unify_all (d : ds) (l : list (nat * nat)) : res ds :=
  match l with [] => Ok d | p :: l' => do d' <- ds_unify d (fst p) (snd p); ds_unify_all d' l' end.

(* ---------- the graph, DependencyGraph.h:144-147 ---------- *)
Record graph := mkG { roots_ : list bool; children_ : list (list nat); edges_ : list (nat * nat) }.
Definition empty_graph : graph := mkG [] [] [].

(* std::pair's operator< and std::set::insert *)
Definition pair_lt (a b : nat * nat) : bool :=
  Nat.ltb (fst a) (fst b) || (Nat.eqb (fst a) (fst b) && Nat.ltb (snd a) (snd b)).
Fixpoint set_insert (e : nat * nat) (l : list (nat * nat)) : list (nat * nat) * bool :=
  match l with
  | [] => ([e], true)
  | x :: r =>
      if pair_lt e x then (e :: l, true)
      else if pair_lt x e then let (r', b) := set_insert e r in (x :: r', b)
      else (l, false)
  end.

(* DependencyGraph.cpp:78-83 *)
Definition addNode (g : graph) : graph * nat :=
  (mkG (roots_ g ++ [true]) (children_ g ++ [[]]) (edges_ g), length (roots_ g)).

(* DependencyGraph.cpp:136-153 *)
Definition addEdge (g : graph) (from to : nat) : res (graph * bool) :=
  if Nat.ltb from (length (roots_ g)) && Nat.ltb to (length (roots_ g)) then
    let (es, fresh) := set_insert (from, to) (edges_ g) in
    if fresh then
      do cs <- nthR (children_ g) from;
      Ok (mkG (setN (roots_ g) to false) (setN (children_ g) from (cs ++ [to])) es, true)
    else Ok (mkG (roots_ g) (children_ g) es, false)
  else UB.

(* DependencyGraph.cpp:85-134 *)
Definition down (id i : nat) : nat := if Nat.ltb id i then i - 1 else i.
(* :90-100 *)
Definition edgesWithout (id : nat) (es : list (nat * nat)) : list (nat * nat) :=
  fold_left (fun acc e =>
      if Nat.eqb (fst e) id || Nat.eqb (snd e) id then acc
      else fst (set_insert (down id (fst e), down id (snd e)) acc)) es [].
(* :104-111 *)
Definition promote (id : nat) (es : list (nat * nat)) (cs : list nat) (roots : list bool) : list bool :=
  fold_left (fun r c =>
      if existsb (fun e => if Nat.ltb id c then Nat.eqb (snd e + 1) c else Nat.eqb (snd e) c) es
      then r else setN r c true) cs roots.
(* :121-130. The predicate given to remove_if decrements its argument; each element is
   tested once. *)
Definition childrenWithout (id : nat) (cs : list nat) : list nat :=
  fold_right (fun j acc => if Nat.ltb id j then (j - 1) :: acc else if Nat.eqb j id then acc else j :: acc) [] cs.
(* children_[id] is left alone by the loop of :112-131, and erased by :133. *)
Definition removeNode (g : graph) (id : nat) : res graph :=
  if Nat.ltb id (length (roots_ g)) then
    let es := edgesWithout id (edges_ g) in
    do cs <- nthR (children_ g) id;
    Ok (mkG (delN id (promote id es cs (roots_ g))) (delN id (map (childrenWithout id) (children_ g))) es)
  else UB.

(* A history of calls; clear (:191-196) is going back to [empty_graph]. *)
Inductive gop := GNode | GEdge (from to : nat) | GRemove (id : nat) | GClear.
Definition gstep (g : graph) (o : gop) : res graph :=
  match o with
  | GNode => Ok (fst (addNode g))
  | GEdge f t => do (g', _) <- addEdge g f t; Ok g'
  | GRemove i => removeNode g i
  | GClear => Ok empty_graph
  end.
Fixpoint grun (g : graph) (h : list gop) : res graph :=
  match h with [] => Ok g | o :: h' => do g' <- gstep g o; grun g' h' end.

(* ---------- order, DependencyGraph.cpp:155-185, 294-348 ---------- *)
Record ost := mkO { ord : list nat; vis : list bool; stk : list bool; comp : ds }.

(* :334-345, the loop over the children; [rec] is the recursive call *)
Fixpoint orderLoop (rec : nat -> ost -> res ost) (v : nat) (cs : list nat) (s : ost) : res ost :=
  match cs with
  | [] => Ok s
  | i :: cs' =>
      do d <- ds_unify (comp s) v i;
      let s1 := mkO (ord s) (vis s) (stk s) d in
      do seen <- nthR (vis s1) i;
      do s2 <- (if negb seen then rec i s1
                else do b <- nthR (stk s1) i; if (b : bool) then Throw else Ok s1);
      orderLoop rec v cs' s2
  end.
(* :322-348 *)
Fixpoint orderUtil (fuel : nat) (g : graph) (v : nat) (s : ost) : res ost :=
  match fuel with
  | O => UB
  | S f =>
      do seen <- nthR (vis s) v;
      do s1 <- (if negb seen then
                  do cs <- nthR (children_ g) v;
                  orderLoop (orderUtil f g) v cs (mkO (ord s) (setN (vis s) v true) (setN (stk s) v true) (comp s))
                else Ok s);
      Ok (mkO (ord s1 ++ [v]) (vis s1) (setN (stk s1) v false) (comp s1))
  end.
(* :304-311 *)
Fixpoint orderRoots (fuel : nat) (g : graph) (l : list nat) (s : ost) : res ost :=
  match l with
  | [] => Ok s
  | i :: l' =>
      do r <- nthR (roots_ g) i;
      do s' <- (if (r : bool) then orderUtil fuel g i s else Ok s);
      orderRoots fuel g l' s'
  end.
(* :294-320 *)
Definition order_ (g : graph) : res (list nat * ds) :=
  let n := length (roots_ g) in
  do s <- orderRoots (S n) g (seq 0 n) (mkO [] (repeat false n) (repeat false n) (ds_init n));
  if negb (existsb (fun b => b) (roots_ g)) && negb (Nat.eqb n 0) then Throw
  else Ok (ord s, comp s).
(* :155 *)
Definition order (g : graph) : res (list nat) := do (l, _) <- order_ g; Ok l.

(* :168-176 *)
Fixpoint groupMap (d : ds) (l : list nat) (map_ : list nat) (k : nat) : res (list nat * nat) :=
  match l with
  | [] => Ok (map_, k)
  | i :: l' =>
      do b <- ds_isRoot d i;
      if (b : bool) then groupMap d l' (setN map_ i k) (S k) else groupMap d l' map_ k
  end.
(* :179-182 *)
Fixpoint fillGroups (d : ds) (map_ : list nat) (l : list nat) (gs : list (list nat)) : res (list (list nat)) :=
  match l with
  | [] => Ok gs
  | i :: l' =>
      do r <- ds_root d i;
      do k <- nthR map_ r;
      do grp <- nthR gs k;
      fillGroups d map_ l' (setN gs k (grp ++ [i]))
  end.
(* :157-185 *)
Definition groupedOrder (g : graph) : res (list (list nat)) :=
  let n := length (roots_ g) in
  do (l, d) <- order_ g;
  do (map_, k) <- groupMap d (seq 0 n) (repeat 0 n) 0;
  fillGroups d map_ l (repeat [] k).

(* ---------- reduce, DependencyGraph.cpp:198-292 ---------- *)
Record tst := mkT { disc : list Z; low : list Z; tmem : list bool; tstk : list nat; time : Z; ret : list (list nat) }.
Local Open Scope Z_scope.

(* :280-290, the while loop and the last pop: returns the component, the stack and
   stackMember *)
Fixpoint popTo (u : nat) (st : list nat) (m : list bool) : res (list nat * list nat * list bool) :=
  match st with
  | [] => UB
  | x :: st' =>
      if Nat.eqb x u then Ok ([x], st', setN m x false)
      else do (c, st2, m2) <- popTo u st' (setN m x false); Ok (x :: c, st2, m2)
  end.
(* :259-275 *)
Fixpoint sccLoop (rec : nat -> tst -> res tst) (u : nat) (cs : list nat) (s : tst) : res tst :=
  match cs with
  | [] => Ok s
  | v :: cs' =>
      do dv <- nthR (disc s) v;
      do s1 <- (if dv =? -1 then
                  do s' <- rec v s;
                  do lu <- nthR (low s') u; do lv <- nthR (low s') v;
                  Ok (mkT (disc s') (setN (low s') u (Z.min lu lv)) (tmem s') (tstk s') (time s') (ret s'))
                else
                  do b <- nthR (tmem s) v;
                  if (b : bool) then
                    do lu <- nthR (low s) u;
                    Ok (mkT (disc s) (setN (low s) u (Z.min lu dv)) (tmem s) (tstk s) (time s) (ret s))
                  else Ok s);
      sccLoop rec u cs' s1
  end.
(* :243-292 *)
Fixpoint SCCUtil (fuel : nat) (g : graph) (u : nat) (s : tst) : res tst :=
  match fuel with
  | O => UB
  | S f =>
      if time s <? 0 then UB else
      do _ <- nthR (disc s) u; do _ <- nthR (low s) u; do _ <- nthR (tmem s) u;
      let t := time s + 1 in
      let s0 := mkT (setN (disc s) u t) (setN (low s) u t) (setN (tmem s) u true) (u :: tstk s) t (ret s) in
      do cs <- nthR (children_ g) u;
      do s1 <- sccLoop (SCCUtil f g) u cs s0;
      do lu <- nthR (low s1) u; do du <- nthR (disc s1) u;
      if lu =? du then
        do (c, st, m) <- popTo u (tstk s1) (tmem s1);
        Ok (mkT (disc s1) (low s1) m st (time s1) (ret s1 ++ [c]))
      else Ok s1
  end.
(* :210-212 *)
Fixpoint sccAll (fuel : nat) (g : graph) (l : list nat) (s : tst) : res tst :=
  match l with
  | [] => Ok s
  | i :: l' =>
      do d <- nthR (disc s) i;
      do s' <- (if d =? -1 then SCCUtil fuel g i s else Ok s);
      sccAll fuel g l' s'
  end.
(* :219-227; the nodes of the reduced graph are added in the same loop *)
Fixpoint writeAll (m : list nat) (l : list nat) (i : nat) : res (list nat) :=
  match l with [] => Ok m | j :: l' => do _ <- nthR m j; writeAll (setN m j i) l' i end.
Fixpoint vertMap (m : list nat) (i : nat) (cs : list (list nat)) (g : graph) : res (list nat * graph) :=
  match cs with
  | [] => Ok (m, g)
  | c :: cs' => do m' <- writeAll m c i; vertMap m' (S i) cs' (fst (addNode g))
  end.
(* :230-238 *)
Fixpoint edgesAll (m : list nat) (es : list (nat * nat)) (g : graph) : res graph :=
  match es with
  | [] => Ok g
  | e :: es' =>
      do f <- nthR m (fst e); do t <- nthR m (snd e);
      do g' <- (if negb (Nat.eqb f t) then do (g1, _) <- addEdge g f t; Ok g1 else Ok g);
      edgesAll m es' g'
  end.
Definition reduce (g : graph) : res (list (list nat) * graph) :=
  let n := length (roots_ g) in
  do s <- sccAll (S n) g (seq 0 n) (mkT (repeat (-1) n) (repeat (-1) n) (repeat false n) [] 0 []);
  do (m, g0) <- vertMap (repeat O n) 0 (ret s) empty_graph;
  do g1 <- edgesAll m (edges_ g) g0;
  Ok (ret s, g1).
