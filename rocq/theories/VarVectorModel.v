(* Model of tvm::VariableVector (src/VariableVector.cpp, include/tvm/VariableVector.h) and
   of the mapping cache Variable::startIn_ (Variable.h:230-288, Variable.cpp:191-201).
   A variable object is a natural number; [V] gives the slice it denotes (supervariable,
   range), see C07. Two objects may denote the same slice. Vectors live in slots; a
   destroyed vector is [None]. Ids and stamps are [Z] (no overflow). *)
Require Import ZArith List Bool.
Require Import Verif.RangeModel.
Import ListNotations.
Local Open Scope Z_scope.

Record vslice := mkVS { sup : nat; rng : Range }.
Definition vsize (s : vslice) : Z := dim (rng s).
(* Variable.cpp:180-184 *)
Definition s_contains (a b : vslice) : bool := Nat.eqb (sup a) (sup b) && containsR (rng a) (rng b).
Definition s_intersects (a b : vslice) : bool := Nat.eqb (sup a) (sup b) && intersects (rng a) (rng b).
(* Variable.h:327-328: same data pointer and size *)
Definition s_eq (a b : vslice) : bool := Nat.eqb (sup a) (sup b) && req (rng a) (rng b).

(* VariableVector.h:200-204 and ObjWithId.h:31 *)
Record vec := mkVec { vid : Z; stamp : Z; size_ : Z; elems : list nat }.
(* Variable.h:226-230, 288 startIn_: object -> vector id -> (start, stamp);
   ObjWithId idProvider_; VariableVector::counter *)
Record world := mkW { startIn : nat -> Z -> option (Z * Z); vecs : list (option vec); nextId : Z; counter : Z }.
Definition empty_world := mkW (fun _ _ => None) [] 0 0.

Inductive outc := RUnit | RBool (b : bool) | RInt (i : Z) | RRange (r : Range) | RSlot (k : nat) | RThrow | RUB.

Definition upd1 (f : nat -> Z -> option (Z * Z)) (v : nat) (i : Z) (x : option (Z * Z)) : nat -> Z -> option (Z * Z) :=
  fun v' i' => if Nat.eqb v v' && (i =? i') then x else f v' i'.
Fixpoint setNth {A} (l : list A) (k : nat) (x : A) : list A :=
  match l, k with [], _ => [] | _ :: r, O => x :: r | y :: r, S j => y :: setNth r j x end.
Definition getV (w : world) (k : nat) : option vec := match nth_error (vecs w) k with Some o => o | None => None end.
Definition putV (w : world) (k : nat) (c : option vec) : world := mkW (startIn w) (setNth (vecs w) k c) (nextId w) (counter w).

Section Vars.
Variable V : nat -> vslice.

(* VariableVector.cpp:166-170 *)
Definition vv_contains (c : vec) (v : nat) : bool := existsb (fun x => s_contains (V x) (V v)) (elems c).
(* VariableVector.cpp:172-176 *)
Definition vv_intersects (c : vec) (v : nat) : bool := existsb (fun x => s_intersects (V x) (V v)) (elems c).
(* position of the first element satisfying [p] *)
Fixpoint findI (p : nat -> bool) (l : list nat) (i : nat) : option (nat * nat) :=
  match l with [] => None | x :: r => if p x then Some (i, x) else findI p r (S i) end.
(* VariableVector.cpp:178-189 *)
Definition vv_indexOf (c : vec) (v : nat) : Z :=
  match findI (fun x => s_contains (V x) (V v)) (elems c) 0 with
  | None => -1
  | Some (i, x) => if s_eq (V x) (V v) then Z.of_nat i else -1
  end.

(* VariableVector.cpp:208-214 add_, with getNewStamp 227-231 *)
Definition add_ (w : world) (k : nat) (c : vec) (v : nat) : world :=
  mkW (upd1 (startIn w) v (vid c) (Some (size_ c, -1)))
      (setNth (vecs w) k (Some (mkVec (vid c) (counter w) (size_ c + vsize (V v)) (elems c ++ [v]))))
      (nextId w) (counter w + 1).

(* VariableVector.cpp:30-41, the loop of add; None: reaches the end *)
Fixpoint addLoop (l : list nat) (v : nat) : option outc :=
  match l with
  | [] => None
  | x :: r => if s_contains (V x) (V v) then Some (RBool false)
              else if s_intersects (V x) (V v) then Some RThrow else addLoop r v
  end.
(* VariableVector.cpp:24-44 add(VariablePtr) *)
Definition add (w : world) (k v : nat) : world * outc :=
  match getV w k with
  | None => (w, RUB)
  | Some c =>
      if vv_contains c v then (w, RBool false)
      else match addLoop (elems c) v with
           | Some o => (w, o)
           | None => (add_ w k c v, RBool true)
           end
  end.
(* VariableVector.cpp:48-52 add(const std::vector<VariablePtr>&) *)
Fixpoint addL (w : world) (k : nat) (l : list nat) : world * outc :=
  match l with
  | [] => (w, RUnit)
  | v :: r => let (w1, o) := add w k v in
              match o with RThrow => (w1, RThrow) | RUB => (w1, RUB) | _ => addL w1 k r end
  end.
(* VariableVector.cpp:54 add(const VariableVector&). Adding a vector to itself iterates over
   the list it may modify: undefined if it does. *)
Definition addVec (w : world) (k k' : nat) : world * outc :=
  match getV w k' with
  | None => (w, RUB)
  | Some c' =>
      let (w1, o) := addL w k (elems c') in
      if Nat.eqb k k' then
        match getV w1 k' with
        | Some c1 => if Nat.eqb (length (elems c1)) (length (elems c')) then (w1, o) else (w1, RUB)
        | None => (w1, RUB)
        end
      else (w1, o)
  end.
(* VariableVector.cpp:56-84 addAndGetIndex *)
Definition addAndGetIndex (w : world) (k v : nat) (containingIndex : bool) : world * outc :=
  match getV w k with
  | None => (w, RUB)
  | Some c =>
      match findI (fun x => s_contains (V x) (V v) || s_intersects (V x) (V v)) (elems c) 0 with
      | None => (add_ w k c v, RInt (Z.of_nat (length (elems c))))
      | Some (i, x) =>
          if s_eq (V x) (V v) then (w, RInt (Z.of_nat i))
          else if s_contains (V x) (V v) then (w, RInt (if containingIndex then Z.of_nat i else -1))
          else (w, RThrow)
      end
  end.

(* VariableVector.cpp:216-225 remove_(position i). startIn_[id()] on a missing key creates
   {0,0} (MappingHelper, Variable.h:226-230). *)
Fixpoint shiftAll (f : nat -> Z -> option (Z * Z)) (i si : Z) (l : list nat) : nat -> Z -> option (Z * Z) :=
  match l with
  | [] => f
  | x :: r =>
      let e := match f x i with Some p => p | None => (0, 0) end in
      shiftAll (upd1 f x i (Some (fst e - si, snd e))) i si r
  end.
Definition remove_ (w : world) (k : nat) (c : vec) (i x : nat) : world :=
  let si := vsize (V x) in
  let f := shiftAll (startIn w) (vid c) si (skipn (S i) (elems c)) in
  mkW (upd1 f x (vid c) None)
      (setNth (vecs w) k (Some (mkVec (vid c) (counter w) (size_ c - si) (firstn i (elems c) ++ skipn (S i) (elems c)))))
      (nextId w) (counter w + 1).
(* VariableVector.cpp:86-99 remove(const Variable&) *)
Definition remove (w : world) (k v : nat) : world * outc :=
  match getV w k with
  | None => (w, RUB)
  | Some c =>
      match findI (fun x => s_eq (V x) (V v)) (elems c) 0 with
      | None => (w, RBool false)
      | Some (i, x) => (remove_ w k c i x, RBool true)
      end
  end.
(* VariableVector.cpp:101-110 remove(int) *)
Definition removeI (w : world) (k : nat) (i : Z) : world * outc :=
  match getV w k with
  | None => (w, RUB)
  | Some c =>
      if (i <? 0) || (Z.of_nat (length (elems c)) <=? i) then (w, RThrow)
      else match nth_error (elems c) (Z.to_nat i) with
           | Some x => (remove_ w k c (Z.to_nat i) x, RUnit)
           | None => (w, RUB)
           end
  end.

(* VariableVector.cpp:112-119 clear *)
Fixpoint eraseAll (f : nat -> Z -> option (Z * Z)) (i : Z) (l : list nat) : nat -> Z -> option (Z * Z) :=
  match l with [] => f | x :: r => eraseAll (upd1 f x i None) i r end.
Definition clear_ (w : world) (k : nat) (c : vec) : world :=
  mkW (eraseAll (startIn w) (vid c) (elems c)) (setNth (vecs w) k (Some (mkVec (vid c) (counter w) 0 [])))
      (nextId w) (counter w + 1).
Definition clear (w : world) (k : nat) : world * outc :=
  match getV w k with None => (w, RUB) | Some c => (clear_ w k c, RUnit) end.

(* VariableVector.cpp:11, ObjWithId.h:28: the default constructor *)
Definition newVec (w : world) : world * nat :=
  (mkW (startIn w) (vecs w ++ [Some (mkVec (nextId w) (counter w) 0 [])]) (nextId w + 1) (counter w + 1), length (vecs w)).
(* VariableVector.cpp:22 destructor *)
Definition destroy (w : world) (k : nat) : world * outc :=
  match getV w k with None => (w, RUB) | Some c => (putV (clear_ w k c) k None, RUnit) end.
(* VariableVector.h:207-217, constructor from a list; when add throws, the (delegated-to)
   default constructor has completed and the destructor runs. *)
Definition newList (w : world) (l : list nat) : world * outc :=
  let (w1, k) := newVec w in
  let (w2, o) := addL w1 k l in
  match o with RUnit => (w2, RSlot k) | RThrow => (fst (destroy w2 k), RThrow) | _ => (w2, RUB) end.
(* VariableVector.cpp:13 copy constructor *)
Definition copyNew (w : world) (k : nat) : world * outc :=
  match getV w k with None => (w, RUB) | Some c => newList w (elems c) end.
(* VariableVector.cpp:15-20 copy assignment: clears before reading the argument *)
Definition assign (w : world) (k k' : nat) : world * outc :=
  match getV w k with
  | None => (w, RUB)
  | Some c =>
      let w1 := clear_ w k c in
      match getV w1 k' with None => (w1, RUB) | Some c' => addL w1 k (elems c') end
  end.
(* VariableVector.h:69 defaulted move constructor; ObjWithId.h:17 sets the id of the source
   to -1; the list of the source is emptied, size_ and stamp_ are copied. *)
Definition moveNew (w : world) (k : nat) : world * outc :=
  match getV w k with
  | None => (w, RUB)
  | Some c => (mkW (startIn w) (setNth (vecs w) k (Some (mkVec (-1) (stamp c) (size_ c) [])) ++ [Some c]) (nextId w) (counter w),
               RSlot (length (vecs w)))
  end.
(* VariableVector.h:72 defaulted move assignment; ObjWithId.h:19-24. For k = k' the id becomes
   -1 and the self-moved std::vector is empty (libstdc++). *)
Definition moveAssign (w : world) (k k' : nat) : world * outc :=
  match getV w k, getV w k' with
  | Some _, Some c' =>
      let w1 := putV w k (Some c') in
      (putV w1 k' (Some (mkVec (-1) (stamp c') (size_ c') [])), RUnit)
  | _, _ => (w, RUB)
  end.

(* VariableVector.cpp:191-204 getMappingOf *)
Definition getMappingOf (w : world) (k v : nat) : world * outc :=
  match getV w k with
  | None => (w, RUB)
  | Some c =>
      match findI (fun x => s_contains (V x) (V v)) (elems c) 0 with
      | None => (w, RThrow)
      | Some (_, x) =>
          (* xi->startIn_[id()] creates {0,0} when missing *)
          let e := match startIn w x (vid c) with Some p => p | None => (0, 0) end in
          let f := upd1 (startIn w) x (vid c) (Some e) in
          let s := fst e + (start (rng (V v)) - start (rng (V x))) in
          (mkW (upd1 f v (vid c) (Some (s, stamp c))) (vecs w) (nextId w) (counter w), RRange (mkRange s (vsize (V v))))
      end
  end.
(* Variable.cpp:191-201 getMappingIn *)
Definition getMappingIn (w : world) (v k : nat) : world * outc :=
  match getV w k with
  | None => (w, RUB)
  | Some c =>
      match startIn w v (vid c) with
      | Some (s, st) => if (st =? -1) || (st =? stamp c) then (w, RRange (mkRange s (vsize (V v)))) else getMappingOf w k v
      | None => getMappingOf w k v
      end
  end.

Inductive vvop :=
| ONew (l : list nat) | OCopy (k : nat) | OMove (k : nat) | OAssign (k k' : nat) | OMoveAssign (k k' : nat) | ODestroy (k : nat)
| OAdd (k v : nat) | OAddL (k : nat) (l : list nat) | OAddVec (k k' : nat) | OAddIdx (k v : nat) (b : bool)
| ORemove (k v : nat) | ORemoveI (k : nat) (i : Z) | OClear (k : nat) | OMapIn (v k : nat) | OMapOf (k v : nat).
Definition vvstep (w : world) (o : vvop) : world * outc :=
  match o with
  | ONew l => newList w l
  | OCopy k => copyNew w k
  | OMove k => moveNew w k
  | OAssign k k' => assign w k k'
  | OMoveAssign k k' => moveAssign w k k'
  | ODestroy k => destroy w k
  | OAdd k v => add w k v
  | OAddL k l => addL w k l
  | OAddVec k k' => addVec w k k'
  | OAddIdx k v b => addAndGetIndex w k v b
  | ORemove k v => remove w k v
  | ORemoveI k i => removeI w k i
  | OClear k => clear w k
  | OMapIn v k => getMappingIn w v k
  | OMapOf k v => getMappingOf w k v
  end.
Fixpoint vvrun (w : world) (l : list vvop) : world :=
  match l with [] => w | o :: r => vvrun (fst (vvstep w o)) r end.

(* Values: a memory gives the cells of each supervariable. *)
Definition memv := nat -> Z -> Z.
Definition seg (m : memv) (s : vslice) : list Z :=
  map (fun i => m (sup s) (start (rng s) + Z.of_nat i)) (seq 0 (Z.to_nat (vsize s))).
(* VariableVector.cpp:133-144 value *)
Fixpoint vv_value (m : memv) (l : list nat) : list Z :=
  match l with [] => [] | x :: r => seg m (V x) ++ vv_value m r end.
(* Variable.cpp:86-92 set on the slice *)
Definition setSeg (m : memv) (s : vslice) (x : list Z) : memv :=
  fun a i => if Nat.eqb a (sup s) && containsI (rng s) i then nth (Z.to_nat (i - start (rng s))) x 0 else m a i.
(* VariableVector.cpp:146-156 set; the assertion on the size is the caller's duty *)
Fixpoint vv_set (m : memv) (l : list nat) (x : list Z) : memv :=
  match l with
  | [] => m
  | v :: r => vv_set (setSeg m (V v) (firstn (Z.to_nat (vsize (V v))) x)) r (skipn (Z.to_nat (vsize (V v))) x)
  end.
End Vars.
