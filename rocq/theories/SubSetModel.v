(* Model of hint::internal::Substitutions (src/hint/Substitutions.cpp, include/tvm/hint/internal/
   Substitutions.h), of the constructor of hint::Substitution (src/hint/Substitution.cpp:37-151) with
   that of its calculator, and of the grouping of dependent substitutions (src/hint/
   SubstitutionUnit.cpp:21-71 and 270-287). The dependency graph is that of GraphModel.v, a unit
   that of SubstModel.v.
   Simplifications: variables are disjoint (no sub-variables), named by their id; constraints are
   named by their address (the order of std::set<LinearConstraintPtr>); a violated assert is UB;
   the calculators are given after their update (an exception thrown there is not modelled).
   A call that throws gives [Threw] with the state left. *)
From Coq Require Import List Bool Arith QArith.
Import ListNotations.
From Verif Require Import Base QSum SubstModel.
From Verif Require GraphModel.
Local Open Scope nat_scope.

(* a linear constraint: whether its type is EQUAL, and its size, variables, rhs *)
Record cons := mkCons { k_equal : bool; k_cst : cst }.
(* Substitution.h: constraints_, x_, rank_ *)
Record ssub := mkSS { ss_cs : list nat; ss_xs : list nat; ss_rank : nat }.
(* a nullspace variable: those created by a unit, in the order of its substitutions; gen counts the
   calls of finalize *)
Record zvar := mkZv { z_gen : nat; z_unit : nat; z_idx : nat; z_size : nat }.
(* SubstitutionUnit: substitutions_, the matrices and flags, the calculators as last updated *)
Record unit_ := mkUnit { n_subs : list ssub; n_mem : ust; n_cal : nat -> calc }.
(* Substitutions.h:80-113; cur: the call of finalize that filled the members *)
Record st := mkSt { subs : list ssub; deps : GraphModel.graph; units : list unit_; vars : list nat;
                    addVars : list zvar; others : list nat; gen : nat; cur : nat }.
Definition init : st := mkSt [] GraphModel.empty_graph [] [] [] [] 0 0.
Inductive outcome := Done (s : st) | Threw (s : st) | Undef.

Fixpoint mapR {A B} (f : A -> res B) (l : list A) : res (list B) :=
  match l with [] => Ok [] | a :: l' => do b <- f a; do r <- mapR f l'; Ok (b :: r) end.
(* std::set, and utils::internal::map, ordered by id *)
Fixpoint insertS (a : nat) (l : list nat) : list nat :=
  match l with
  | [] => [a]
  | b :: l' => if a <? b then a :: l else if a =? b then l else b :: insertS a l'
  end.
Definition sorted (l : list nat) : list nat := fold_left (fun l a => insertS a l) l [].
(* VariableVector::add, and the loop Substitutions.cpp:118-124 *)
Definition addUniq (l : list nat) (v : nat) : list nat := if mem v l then l else l ++ [v].
Definition uniq (l : list nat) : list nat := fold_left addUniq l [].
Fixpoint nodupb (l : list nat) : bool := match l with [] => true | a :: l' => negb (mem a l') && nodupb l' end.

Section Set_.
Variable sz : nat -> nat.
Variable cdef : nat -> cons.
Definition csize (c : nat) : nat := c_size (k_cst (cdef c)).
Definition cvars (c : nat) : list nat := c_vars (k_cst (cdef c)).
Definition hasVar (c v : nat) : bool := mem v (cvars c).
Definition toSub (s : ssub) : sub := mkSub (map (fun c => k_cst (cdef c)) (ss_cs s)) (ss_xs s) (ss_rank s).
(* m_, Substitution.cpp:52-55 *)
Definition mOf (cs : list nat) : nat := list_sum (map csize cs).

(* Substitution::check, Substitution.cpp:72-151: false when it throws *)
Definition check (s : ssub) : bool :=
  forallb (fun c => k_equal (cdef c)) (ss_cs s) &&
  nodupb (ss_xs s) &&
  forallb (fun x => existsb (fun c => hasVar c x) (ss_cs s)) (ss_xs s) &&
  forallb (fun c => existsb (fun x => hasVar c x) (ss_xs s)) (ss_cs s) &&
  (ss_rank s <=? total sz (ss_xs s)).
(* Substitution::Substitution, Substitution.cpp:37-58; rank None is constant::fullRank. Without
   variable, x_.size() - 1 wraps around and the loop 89-101 runs 2^64 - 1 times: counted as UB. The constructor of the calculator asserts m <= n and
   r <= m (SubstitutionCalculatorImpl.cpp:133-146). *)
Definition newSub (cs xs : list nat) (rank : option nat) : res ssub :=
  let s := mkSS cs xs (match rank with Some r => r | None => mOf cs end) in
  match xs with
  | [] => if forallb (fun c => k_equal (cdef c)) cs then UB else Throw
  | _ => if check s then
           if (mOf cs <=? total sz xs) && (ss_rank s <=? mOf cs) then Ok s else UB
         else Throw
  end.

(* dependsOn, Substitutions.cpp:12-25 *)
Definition dependsOn (s t : ssub) : bool :=
  existsb (fun x => existsb (fun c => hasVar c x) (ss_cs s)) (ss_xs t).
(* the loop of add, Substitutions.cpp:33-43: i is the new node, l the substitutions from j on *)
Fixpoint addEdges (i j : nat) (s : ssub) (l : list ssub) (g : GraphModel.graph) : res GraphModel.graph :=
  match l with
  | [] => Ok g
  | t :: l' =>
      do g1 <- (if dependsOn t s then do (g', _) <- GraphModel.addEdge g j i; Ok g' else Ok g);
      do g2 <- (if dependsOn s t then do (g', _) <- GraphModel.addEdge g1 i j; Ok g' else Ok g1);
      addEdges i (S j) s l' g2
  end.
(* Substitutions::add, 27-44 *)
Definition add (s : ssub) (t : st) : outcome :=
  let (g, i) := GraphModel.addNode (deps t) in
  if negb (i =? length (subs t)) then Undef
  else match addEdges i 0 s (subs t ++ [s]) g with
       | Ok g' => Done (mkSt (subs t ++ [s]) g' (units t) (vars t) (addVars t) (others t) (gen t) (cur t))
       | _ => Undef
       end.
(* Substitutions::remove, 46-54, given a reference to the i-th element of substitutions_. A
   reference to another object (i out of the vector) changes nothing. *)
Definition remove (i : nat) (t : st) : outcome :=
  if i <? length (subs t) then
    match GraphModel.removeNode (deps t) i with
    | Ok g => Done (mkSt (GraphModel.delN i (subs t)) g (units t) (vars t) (addVars t) (others t) (gen t) (cur t))
    | _ => Undef
    end
  else Done t.

(* group, SubstitutionUnit.cpp:21-71 *)
Definition rankOf (vs : list nat) (s : ssub) : nat :=
  let more xi := if mem xi (ss_xs s) then 0
                 else Nat.min (mOf (filter (fun c => hasVar c xi) (ss_cs s))) (sz xi) in
  Nat.min (ss_rank s + list_sum (map more vs)) (mOf (ss_cs s)).
Definition group (l : list ssub) : res ssub :=
  let cs := sorted (flat_map ss_cs l) in
  let vs := sorted (flat_map ss_xs l) in
  newSub cs vs (Some (list_sum (map (rankOf vs) l))).
(* extractSubstitutions, SubstitutionUnit.cpp:270-287 *)
Definition oneOf (pool : list ssub) (cl : list nat) : res ssub :=
  match cl with
  | [] => UB
  | [a] => GraphModel.nthR pool a
  | _ => do l <- mapR (GraphModel.nthR pool) cl; group l
  end.
Definition extract (pool : list ssub) (scc : list (list nat)) (order : list nat) : res (list ssub) :=
  mapR (fun i => do cl <- GraphModel.nthR scc i; oneOf pool cl) order.
(* what the unit is made of *)
Definition scanned (l : list ssub) : list urec := scan sz start (map toSub l).
(* the constructor, SubstitutionUnit.cpp:80-91: the memory [m] of the matrices is not initialised *)
Definition newUnit (l : list ssub) (m : ust * (nat -> calc)) : unit_ :=
  mkUnit l (initialize (scanned l) (fst m)) (snd m).
(* y_: SubstitutionUnit.cpp:331-343 *)
Definition unitY (l : list ssub) : list nat := uniq (flat_map k_Y (flat_map u_cs (scanned l))).
(* z_: SubstitutionUnit.cpp:354-356 *)
Definition unitZ (g p : nat) (l : list ssub) : list zvar := map (fun r => mkZv g p (u_k r) (u_nz r)) (scanned l).

(* the loop 83-88; b: all the units have been built *)
Fixpoint buildUnits (pool : list ssub) (scc : list (list nat)) (mm : nat -> ust * (nat -> calc))
    (gs : list (list nat)) (us : list unit_) : res (list unit_ * bool) :=
  match gs with
  | [] => Ok (us, true)
  | g :: gs' =>
      match extract pool scc g with
      | Ok l => buildUnits pool scc mm gs' (us ++ [newUnit l (mm (length us))])
      | Throw => Ok (us, false)
      | UB => UB
      end
  end.
Fixpoint indexed {A} (p : nat) (l : list A) : list (nat * A) :=
  match l with [] => [] | a :: l' => (p, a) :: indexed (S p) l' end.
(* Substitutions::finalize, 71-126; additionalVariables_ is not cleared (91-94) *)
Definition finalize (mm : nat -> ust * (nat -> calc)) (t : st) : outcome :=
  match (do (scc, g) <- GraphModel.reduce (deps t);
         do gs <- GraphModel.groupedOrder g;
         buildUnits (subs t) scc mm gs []) with
  | Ok (us, true) =>
      let g := S (gen t) in
      Done (mkSt (subs t) (deps t) us
                 (flat_map (fun u => flat_map ss_xs (n_subs u)) us)
                 (addVars t ++ flat_map (fun pu => filter (fun z => 0 <? z_size z) (unitZ g (fst pu) (n_subs (snd pu)))) (indexed 0 us))
                 (uniq (flat_map (fun u => unitY (n_subs u)) us)) g g)
  | Ok (us, false) => Threw (mkSt (subs t) (deps t) us (vars t) (addVars t) (others t) (S (gen t)) (cur t))
  | Throw => Threw t
  | UB => Undef
  end.

(* The data of an update: jacobian(x) and e() of the constraints, the calculators of each unit. *)
Record data := mkD { d_jac : nat -> nat -> mat; d_e : nat -> vec; d_cal : nat -> nat -> calc }.
Definition cstr (l : list ssub) (k i : nat) : option nat :=
  match nth_error l k with Some s => nth_error (ss_cs s) i | None => None end.
Definition jacOf (D : data) (l : list ssub) (k i v : nat) : mat :=
  match cstr l k i with Some c => d_jac D c v | None => fun _ _ => 0%Q end.
Definition eOf (D : data) (l : list ssub) (k i : nat) : vec :=
  match cstr l k i with Some c => d_e D c | None => fun _ => 0%Q end.
(* updateSubstitutions, 128-134 *)
Definition updateUnit (D : data) (pu : nat * unit_) : res unit_ :=
  let (p, u) := pu in
  do m <- update sz (jacOf D (n_subs u)) (eOf D (n_subs u)) (d_cal D p) (scanned (n_subs u)) (n_mem u);
  Ok (mkUnit (n_subs u) m (d_cal D p)).
Definition updateSubstitutions (D : data) (t : st) : res st :=
  do us <- mapR (updateUnit D) (indexed 0 (units t));
  Ok (mkSt (subs t) (deps t) us (vars t) (addVars t) (others t) (gen t) (cur t)).

(* variableSubstitutions, given the values of the variables and of the nullspace variables (by unit
   and index) *)
Definition valuation := nat -> vec.
Definition zvaluation := nat -> nat -> vec.
Definition functions (t : st) : list (valuation -> zvaluation -> vec) :=
  flat_map (fun pu => map (fun f val zv => snd f val (zv (fst pu)))
                          (varSubstitutions sz (n_cal (snd pu)) (scanned (n_subs (snd pu))) (n_mem (snd pu))))
           (indexed 0 (units t)).
(* additionalConstraints: size, and left-hand side minus right-hand side; 111-117 *)
Definition additionalConstraints (t : st) : list (nat * (valuation -> zvaluation -> vec)) :=
  filter (fun c => 0 <? fst c)
    (flat_map (fun pu => map (fun c => (fst c, fun val zv => snd c val (zv (fst pu))))
                             (remaining sz (scanned (n_subs (snd pu))) (n_mem (snd pu))))
              (indexed 0 (units t))).
(* updateVariableValues, 136-143 *)
Definition updateVariableValues (t : st) (zv : zvaluation) (val : valuation) : valuation :=
  fold_left (fun val p => fupd val (fst p) (snd p val zv)) (combine (vars t) (functions t)) val.

(* substitute, 157-188, the variables being disjoint *)
Inductive svar := SV (v : nat) | SZ (z : zvar).
Definition functionVars (g : nat) (pu : nat * unit_) : list (list svar) :=
  map (fun x => map SV (x_Y x) ++ map (fun j => SZ (mkZv g (fst pu) j (zs (scanned (n_subs (snd pu))) j))) (x_Z x))
      (flat_map u_xs (scanned (n_subs (snd pu)))).
Fixpoint assoc {A} (x : nat) (l : list (nat * A)) : option A :=
  match l with [] => None | (y, a) :: l' => if y =? x then Some a else assoc x l' end.
Definition substitute (t : st) (x : nat) : list svar :=
  match assoc x (combine (vars t) (flat_map (functionVars (cur t)) (indexed 0 (units t)))) with
  | Some l => l
  | None => [SV x]
  end.
(* uses, 58-69; getSubstitutionFor, 190-202 *)
Definition uses (t : st) (c : nat) : bool := existsb (fun s => mem c (ss_cs s)) (subs t).
Definition getSubstitutionFor (t : st) (c : nat) : option ssub := find (fun s => mem c (ss_cs s)) (subs t).

(* a history of calls; the substitution added is constructed before *)
Inductive op :=
| OAdd (cs xs : list nat) (rank : option nat)
| ORemove (i : nat)
| OFinalize (mm : nat -> ust * (nat -> calc))
| OUpdate (D : data).
Definition step (o : op) (t : st) : outcome :=
  match o with
  | OAdd cs xs r => match newSub cs xs r with Ok s => add s t | Throw => Threw t | UB => Undef end
  | ORemove i => remove i t
  | OFinalize mm => finalize mm t
  | OUpdate D => match updateSubstitutions D t with Ok t' => Done t' | _ => Undef end
  end.
(* exceptions are caught *)
Fixpoint run (l : list op) (t : st) : option st :=
  match l with
  | [] => Some t
  | o :: l' => match step o t with Done t' | Threw t' => run l' t' | Undef => None end
  end.
Fixpoint updates (l : list data) (t : st) : res st :=
  match l with [] => Ok t | D :: l' => do t' <- updateSubstitutions D t; updates l' t' end.
End Set_.
