(* Model of solver::abstract::HierarchicalLeastSquareSolver (src/solver/HierarchicalLeastSquareSolver.cpp) as
   implemented by LexLSHierarchicalLeastSquareSolver (src/solver/LexLSHierarchicalLeastSquareSolver.cpp), and of
   the way scheme::HierarchicalLeastSquares builds it (src/scheme/HierarchicalLeastSquares.cpp:107-191).
   Sizes, levels and row numbers are natural numbers (the code has int; the assertions of startBuild, lines
   51-54, say they are not negative). Matrices are modelled by their dimensions and by the identity of their
   buffer; the coefficients written by the assignments are the subject of C22-C25. A violated assert is UB. *)
From Coq Require Import List Bool Arith.
Import ListNotations.
From Verif Require Import Base.

(* An Eigen::MatrixXd: dimensions and number of the buffer. *)
Record mat := mkM { rows : nat; cols : nat; buffer : nat }.
(* ImpactFromChanges::willReallocate, include/tvm/solver/abstract/HierarchicalLeastSquareSolver.h:233-237. *)
Definition willReallocate (m : mat) (r c : nat) : bool := negb (rows m * cols m =? r * c).
(* Eigen's resize: a new buffer is taken exactly if the number of coefficients changes. [fresh] is a buffer
   number never used so far. *)
Definition resize (m : mat) (r c fresh : nat) : mat := mkM r c (if willReallocate m r c then fresh else buffer m).

(* xl_ and xu_ (LexLS header, lines 65-66), references to columns of a matrix: buffer, number of entries, and
   whether both are references to the same column, as built by the constructor (LexLS lines 16-17). *)
Record bref := mkB { rbuf : nat; rsize : nat; ralias : bool }.

(* An assignment to rows [astart, astart + adim) of A_[alvl], l_[alvl] and u_[alvl]. *)
Record assignment := mkA { alvl : nat; astart : nat; adim : nat }.

(* What solver_ was last resized to (LexLS lines 120-136): number of variables, and for each objective its number of
   rows and whether it is made of simple bounds. None: never resized. *)
Definition config := option (nat * list (nat * bool)).

(* The fields of both classes. equalityConstraintToAssignments_ and the like, options, warm start, and verbosity
   are not modelled; feasibleFirstLevel_ is a parameter of the functions that read it. *)
Record solver := mkS {
  building : bool;               (* buildInProgress_ *)
  nVar : nat;                    (* variables().totalSize() *)
  nEq : list nat; nIneq : list nat;
  eqSize : list nat; ineqSize : list nat;
  useBounds : bool;
  assignments : list assignment; (* assignments_, without those of the bounds *)
  boundRanges : list (nat * nat);(* assignments_ of the bounds: start and dimension in xl_ and xu_ *)
  boundData : mat; data : list mat; xlu : bref;
  identityAt : option nat;       (* level whose A_ was set to identity by setMinimumNorm_ *)
  conf : config;
  next : nat                     (* next buffer number *)
}.
(* Constructors: HierarchicalLeastSquareSolver.cpp:41-43, LexLS lines 15-44. *)
Definition fresh : solver :=
  mkS false 0 [] [] [] [] false [] [] (mkM 1 1 0) [] (mkB 0 1 true) None None 1.

(* LexLS lines 66-74: data_ grows to nLvl; it never shrinks. New matrices are empty. *)
Definition grow (d : list mat) (nLvl : nat) : list mat := d ++ repeat (mkM 0 0 0) (nLvl - length d).
(* The total number of rows of level i, LexLS lines 90-112: with bounds in the first level, n more. *)
Definition levelRows (n : nat) (extra : bool) (i e k : nat) : nat :=
  if (i =? 0) && extra then e + k + n else e + k.
(* The loop, LexLS lines 88-118, from level i on: new data_, whether some data was reallocated, next buffer number.
   Levels beyond the end of nEq are left as they are. *)
Fixpoint resizeLevels (n : nat) (extra : bool) (i : nat) (d : list mat) (ne ni : list nat) (nx : nat) : list mat * bool * nat :=
  match d, ne, ni with
  | m :: d', e :: ne', k :: ni' =>
      let r := levelRows n extra i e k in
      let '(d'', imp, nx') := resizeLevels n extra (S i) d' ne' ni' (S nx) in
      (resize m r (n + 2) nx :: d'', willReallocate m r (n + 2) || imp, nx')
  | _, _, _ => (d, false, nx)
  end.
Fixpoint allRows (n : nat) (extra : bool) (i : nat) (ne ni : list nat) : list nat :=
  match ne, ni with
  | e :: ne', k :: ni' => levelRows n extra i e k :: allRows n extra (S i) ne' ni'
  | _, _ => []
  end.
(* resize_, LexLS lines 55-155. autoMinNorm_ only sets the content of the last A_, which setMinimumNorm_ will set
   again; the coefficients are not modelled. *)
Definition resize_ (ffl : bool) (s : solver) (n : nat) (ne ni : list nat) (ub : bool) : solver :=
  let d0 := grow (data s) (length ne) in
  let impB := ub && ffl && willReallocate (boundData s) n 2 in
  let bd := if ub && ffl then resize (boundData s) n 2 (next s) else boundData s in
  let xr := if ub && ffl then mkB (buffer bd) n false else xlu s in
  let extra := ub && negb ffl in
  let '(d1, imp, nx) := resizeLevels n extra 0 d0 ne ni (S (next s)) in
  let xr' := match d1, ne with m :: _, _ :: _ => if extra then mkB (buffer m) n false else xr | _, _ => xr end in
  let objs := (if ub && ffl then [(n, true)] else []) ++ map (fun r => (r, false)) (allRows n extra 0 ne ni) in
  mkS (building s) n (nEq s) (nIneq s) (eqSize s) (ineqSize s) (useBounds s) (assignments s) (boundRanges s)
      bd d1 xr' (identityAt s) (if impB || imp then Some (n, objs) else conf s) nx.

(* std::vector::resize(k, 0) *)
Definition vresize (l : list nat) (k : nat) : list nat := firstn k l ++ repeat 0 (k - length l).

(* startBuild, HierarchicalLeastSquareSolver.cpp:45-77. *)
Definition startBuild (ffl : bool) (s : solver) (n : nat) (ne ni : list nat) (ub : bool) : res solver :=
  if negb (length ne =? length ni) then UB else
  let s1 := resize_ ffl s n ne ni ub in
  Ok (mkS true n ne ni (vresize (eqSize s1) (length ne)) (vresize (ineqSize s1) (length ne)) ub [] []
          (boundData s1) (data s1) (xlu s1) None (conf s1) (next s1)).

Definition upd (l : list nat) (i : nat) (f : nat -> nat) : list nat :=
  firstn i l ++ match skipn i l with x :: t => f x :: t | [] => [] end.

(* A constraint to be added: level, whether it is an equality, size. constraintSize (lines 162-172) is the size, as
   handleDoubleSidedConstraint_ is true for LexLS (header line 47). *)
Record cstr := mkC { clvl : nat; ceq : bool; csize : nat }.
(* addConstraint, lines 97-116, with addEqualityConstraint_, addIneqalityConstraint_, nextEqualityConstraintRange_,
   nextInequalityConstraintRange_, LexLS lines 163-177 and 238-254. *)
Definition addConstraint (s : solver) (c : cstr) : res solver :=
  if negb (building s) then UB else
  if length (nEq s) <=? clvl c then UB else
  let start := nth (clvl c) (eqSize s) 0 + nth (clvl c) (ineqSize s) 0 in
  if nth (clvl c) (nEq s) 0 + nth (clvl c) (nIneq s) 0 <? start + csize c then UB else
  Ok (mkS true (nVar s) (nEq s) (nIneq s)
        (if ceq c then upd (eqSize s) (clvl c) (fun x => x + csize c) else eqSize s)
        (if ceq c then ineqSize s else upd (ineqSize s) (clvl c) (fun x => x + csize c))
        (useBounds s) (assignments s ++ [mkA (clvl c) start (csize c)]) (boundRanges s)
        (boundData s) (data s) (xlu s) (identityAt s) (conf s) (next s)).

(* addBound, lines 86-95, with addBound_, LexLS lines 157-161. The range is that of the variable in variables().
   An AssignmentTarget on a range that is not in xl_ is out of bounds, as is one on a freed buffer. *)
Definition liveBuffer (s : solver) (b : nat) : bool :=
  existsb (fun m => (buffer m =? b) && negb (rows m * cols m =? 0)) (boundData s :: data s).
Definition validBounds (s : solver) : bool := (rsize (xlu s) =? 0) || liveBuffer s (rbuf (xlu s)).
Definition addBound (s : solver) (start dim : nat) : res solver :=
  if negb (building s) then UB else
  if negb (validBounds s) || (rsize (xlu s) <? start + dim) then UB else
  Ok (mkS true (nVar s) (nEq s) (nIneq s) (eqSize s) (ineqSize s) (useBounds s) (assignments s)
        (boundRanges s ++ [(start, dim)]) (boundData s) (data s) (xlu s) (identityAt s) (conf s) (next s)).

(* setMinimumNorm, lines 118-128, with setMinimumNorm_, LexLS lines 179-186. back() of an empty vector is UB. A_ has
   the size of data_, so that A_.back() is the last level of data_. *)
Definition setMinimumNorm (s : solver) : res solver :=
  match length (nEq s) with
  | 0 => UB
  | S k =>
      if negb (nth k (nEq s) 0 =? nVar s) || negb (nth k (nIneq s) 0 =? 0) then UB else
      if negb (building s) then Throw else
      Ok (mkS true (nVar s) (nEq s) (nIneq s) (upd (eqSize s) k (fun _ => nVar s)) (ineqSize s) (useBounds s) (assignments s)
            (boundRanges s) (boundData s) (data s) (xlu s) (Some (length (data s) - 1)) (conf s) (next s))
  end.

Fixpoint listEqb (a b : list nat) : bool :=
  match a, b with
  | [], [] => true
  | x :: a', y :: b' => (x =? y) && listEqb a' b'
  | _, _ => false
  end.
(* finalizeBuild, lines 79-84. *)
Definition finalizeBuild (s : solver) : res solver :=
  if negb (listEqb (nEq s) (eqSize s)) || negb (listEqb (nIneq s) (ineqSize s)) then UB else
  Ok (mkS false (nVar s) (nEq s) (nIneq s) (eqSize s) (ineqSize s) (useBounds s) (assignments s) (boundRanges s)
        (boundData s) (data s) (xlu s) (identityAt s) (conf s) (next s)).

(* The calls setData of postAssignmentProcess_, LexLS lines 197-219, in order, the index of an objective being its
   position: rows, columns, and whether the call is that for simple bounds. *)
Definition handed (ffl : bool) (s : solver) : list (nat * nat * bool) :=
  (if useBounds s && ffl then [(rows (boundData s), cols (boundData s), true)] else []) ++
  map (fun m => (rows m, cols m, false)) (data s).
(* solve, lines 130-158, up to the call of the LexLS library: the configuration of the library and the data handed
   to it. resetBounds_ (LexLS lines 188-193) writes all of xl_ and xu_. *)
Definition solve (ffl : bool) (s : solver) : res (config * list (nat * nat * bool)) :=
  if building s then Throw else
  if negb (validBounds s) then UB else
  Ok (conf s, handed ffl s).

(* process, lines 174-175. *)
Definition process (s : solver) : res solver := Throw.

(* Public calls. *)
Inductive call :=
| StartBuild (n : nat) (ne ni : list nat) (ub : bool)
| AddConstraint (c : cstr)
| AddBound (start dim : nat)
| SetMinimumNorm
| FinalizeBuild.
Definition step (ffl : bool) (s : solver) (c : call) : res solver :=
  match c with
  | StartBuild n ne ni ub => startBuild ffl s n ne ni ub
  | AddConstraint c => addConstraint s c
  | AddBound a d => addBound s a d
  | SetMinimumNorm => setMinimumNorm s
  | FinalizeBuild => finalizeBuild s
  end.
Fixpoint run (ffl : bool) (s : solver) (cs : list call) : res solver :=
  match cs with
  | [] => Ok s
  | c :: cs' => bind (step ffl s c) (fun s' => run ffl s' cs')
  end.

(* HierarchicalLeastSquares::processProblem, HierarchicalLeastSquares.cpp:107-191, for constraints already sorted out
   as those used as bounds, with the range of their variable, the others, and the sizes of the additional constraints of
   the substitutions (equalities added at level 0). Lines 118-148: the counting. *)
Definition bump (l : list nat) (p k : nat) : list nat :=
  upd (if length l <=? p then vresize l (S p) else l) p (fun x => x + k).
Definition count (acc : list nat * list nat) (c : cstr) : list nat * list nat :=
  let '(ne, ni) := acc in
  if ceq c then (bump ne (clvl c) (csize c), bump ni (clvl c) 0)
  else (bump ne (clvl c) 0, bump ni (clvl c) (csize c)).
(* Lines 149-161. *)
Definition extraCstrs (add : list nat) : list cstr := map (mkC 0 true) add.
(* Lines 163-190: the calls. *)
Definition calls (n : nat) (cs : list cstr) (bounds : list (nat * nat)) (add : list nat) (damping : bool) : list call :=
  let cs' := cs ++ extraCstrs add in
  let '(ne, ni) := fold_left count cs' ([], []) in
  let ne' := if damping then ne ++ [n] else ne in
  let ni' := if damping then ni ++ [0] else ni in
  StartBuild n ne' ni' (match bounds with [] => false | _ => true end)
  :: map AddConstraint cs' ++ (if damping then [SetMinimumNorm] else [])
  ++ map (fun b => AddBound (fst b) (snd b)) bounds ++ [FinalizeBuild].
(* Lines 92-105 and 210-214: the solver is always a new one. *)
Definition processProblem (ffl : bool) (n : nat) (cs : list cstr) (bounds : list (nat * nat)) (add : list nat) (damping : bool) : res solver :=
  run ffl fresh (calls n cs bounds add damping).
