(* Model of tvm::Variable, src/Variable.cpp and include/tvm/Variable.h.
   Objects live in a heap and are never destroyed (a VariablePtr keeps the whole family
   alive, Variable.h:41-46). A pointer is an index in the heap, a value_ map is
   (block, offset, size) in a list of memory blocks. Values are only copied, they are
   [Z]. Names are reduced to the [start:end] label of the automatic names. The mapping
   cache startIn_ is modelled in VarVectorModel.v. *)
Require Import ZArith List Bool.
Require Import Verif.Base Verif.RangeModel Verif.SpaceModel.
Import ListNotations.
Local Open Scope Z_scope.

(* Variable.h:250-288 *)
Record vobj := mkV {
  v_space : space;
  v_shift : space;
  v_mem : option nat;       (* memory_ *)
  v_block : nat;            (* value_: block, offset, size *)
  v_off : Z;
  v_size : Z;
  v_dn : nat;               (* derivativeNumber_ *)
  v_prim : option nat;      (* primitive_ *)
  v_super : option nat;     (* superVariable_ *)
  v_deriv : option nat;     (* derivative_ *)
  v_label : option (Z * Z)
}.

Record heap := mkH { objs : list vobj; mem : list (list Z) }.
Definition empty_heap := mkH [] [].

Definition get (h : heap) (i : nat) : res vobj :=
  match nth_error (objs h) i with Some o => Ok o | None => UB end.

Fixpoint upd {A} (l : list A) (i : nat) (x : A) : list A :=
  match l, i with
  | [], _ => []
  | _ :: r, O => x :: r
  | y :: r, S j => y :: upd r j x
  end.

(* The written part of a block: [x] replaces the elements from [off] on. *)
Definition splice (l : list Z) (off : Z) (x : list Z) : list Z :=
  firstn (Z.to_nat off) l ++ x ++ skipn (Z.to_nat off + length x) l.
Definition blockOf (h : heap) (b : nat) : list Z := nth b (mem h) [].
Definition write (h : heap) (b : nat) (off : Z) (x : list Z) : heap :=
  mkH (objs h) (upd (mem h) b (splice (blockOf h b) off x)).
Definition zeros (n : Z) : list Z := repeat 0 (Z.to_nat n).

Definition zeroSpace := mkSpace 0 0 0 Euclidean.

(* Variable.cpp:203-207, reached from Space::createVariable (Space.cpp:49) *)
Definition newVar (h : heap) (s : space) : heap * nat :=
  let b := length (mem h) in
  (mkH (objs h ++ [mkV s zeroSpace (Some b) b 0 (rSize s) 0 None None None None])
       (mem h ++ [zeros (rSize s)]),
   length (objs h)).

(* Variable.cpp:150-158: the supervariable of [i] *)
Definition superOf (h : heap) (i : nat) : res nat :=
  do o <- get h i; Ok (match v_super o with Some s => s | None => i end).

(* Variable.cpp:35 primitive->derivative_.reset(d) *)
Definition withDeriv (o : vobj) (d : option nat) : vobj :=
  mkV (v_space o) (v_shift o) (v_mem o) (v_block o) (v_off o) (v_size o) (v_dn o) (v_prim o) (v_super o) d (v_label o).
Definition setDeriv (h : heap) (i d : nat) : heap :=
  match nth_error (objs h) i with
  | Some o => mkH (upd (objs h) i (withDeriv o (Some d))) (mem h)
  | None => h
  end.

(* Variable.cpp:12-40 dot(var, 1): the existing derivative, or a new one built by the
   constructor of Variable.cpp:209-227, which derives the supervariable first when [v] is
   a subvariable ([fuel] bounds this recursion) and ends by zeroing the value. *)
Fixpoint dot1 (fuel : nat) (h : heap) (v : nat) (auto : bool) : res (heap * nat) :=
  match fuel with
  | O => UB
  | S f =>
      do o <- get h v;
      match v_deriv o with
      | Some d => Ok (h, d)
      | None =>
          let label := if auto then Some (tSize (v_shift o), tSize (v_shift o) + tSize (v_space o) - 1) else None in
          match v_super o with
          | None =>
              let b := length (mem h) in
              let d := length (objs h) in
              let h1 := mkH (objs h ++ [mkV (v_space o) (v_shift o) (Some b) b 0 (tSize (v_space o)) (S (v_dn o))
                                            (Some v) None None label])
                            (mem h ++ [zeros (tSize (v_space o))]) in
              Ok (setDeriv h1 v d, d)
          | Some sp =>
              do (h1, dsp) <- dot1 f h sp false;
              do ds <- get h1 dsp;
              match v_mem ds with
              | None => UB
              | Some b =>
                  let d := length (objs h1) in
                  let h2 := mkH (objs h1 ++ [mkV (v_space o) (v_shift o) None b (tSize (v_shift o)) (tSize (v_space o))
                                                 (S (v_dn o)) (Some v) (Some dsp) None label])
                                (mem h1) in
                  (* :226 value_.setZero() *)
                  Ok (write (setDeriv h2 v d) b (tSize (v_shift o)) (zeros (tSize (v_space o))), d)
              end
          end
      end
  end.

(* Variable.cpp:12-40 dot(var, n) *)
Fixpoint dotIter (n : nat) (h : heap) (v : nat) (auto : bool) : res (heap * nat) :=
  match n with
  | O => Ok (h, v)
  | S m => do (h1, d) <- dot1 2 h v auto; dotIter m h1 d auto
  end.
Definition dot (h : heap) (v : nat) (n : nat) (auto : bool) : res (heap * nat) :=
  match n with O => UB | _ => dotIter n h v auto end.

(* Variable.cpp:130-148 basePrimitive *)
Fixpoint walkPrim (n : nat) (h : heap) (v : nat) : res nat :=
  match n with
  | O => Ok v
  | S m => do o <- get h v; match v_prim o with Some p => walkPrim m h p | None => UB end
  end.
Definition basePrimitive (h : heap) (v : nat) : res nat :=
  do o <- get h v; walkPrim (v_dn o) h v.

(* Variable.cpp:229-264 subvariable *)
Definition subvariable (h : heap) (v : nat) (s shift : space) (auto : bool) : res (heap * nat) :=
  do o <- get h v;
  do p <- space_mul s shift;
  if negb (space_le p (v_space o)) then Throw
  else
    do sup <- superOf h v;
    do base <- basePrimitive h sup;
    do bo <- get h base;
    do sh <- space_mul (v_shift o) shift;
    match v_mem bo with
    | None => UB
    | Some b =>
        let start := rSize (v_shift bo) + rSize shift in     (* :245 *)
        let label := if auto then Some (start, start + rSize s - 1) else None in
        let sub := length (objs h) in
        let h1 := mkH (objs h ++ [mkV s sh None b (rSize sh) (rSize s) 0 None (Some base) None label]) (mem h) in
        match v_dn o with
        | O => Ok (h1, sub)
        | n => dot h1 sub n auto
        end
    end.

(* Variable.cpp:164-170 subvariableRange *)
Definition subvariableRange (h : heap) (v : nat) : res Range :=
  do o <- get h v;
  match v_super o with
  | None => Ok (mkRange 0 (v_size o))
  | Some sp => do so <- get h sp; Ok (mkRange (v_off o - v_off so) (v_size o))
  end.

(* Variable.cpp:172-178 tSubvariableRange *)
Definition tSubvariableRange (h : heap) (v : nat) : res Range :=
  do o <- get h v;
  do r <- subvariableRange h v;
  match v_dn o with
  | O => Ok (mkRange (start r - (rSize (v_shift o) - tSize (v_shift o))) (tSize (v_space o)))
  | S _ => Ok r
  end.

(* Variable.cpp:180-184 *)
Definition vcontains (h : heap) (u v : nat) : res bool :=
  do su <- superOf h u; do sv <- superOf h v;
  do ru <- subvariableRange h u; do rv <- subvariableRange h v;
  Ok (Nat.eqb su sv && containsR ru rv).
Definition vintersects (h : heap) (u v : nat) : res bool :=
  do su <- superOf h u; do sv <- superOf h v;
  do ru <- subvariableRange h u; do rv <- subvariableRange h v;
  Ok (Nat.eqb su sv && intersects ru rv).

(* Variable.h:327-328 operator== : same data pointer, same size *)
Definition veq (h : heap) (u v : nat) : res bool :=
  do ou <- get h u; do ov <- get h v;
  Ok (Nat.eqb (v_block ou) (v_block ov) && (v_off ou =? v_off ov) && (v_size ou =? v_size ov)).

(* Variable.cpp:84 value *)
Definition value (h : heap) (v : nat) : res (list Z) :=
  do o <- get h v;
  Ok (firstn (Z.to_nat (v_size o)) (skipn (Z.to_nat (v_off o)) (blockOf h (v_block o)))).

(* Variable.cpp:86-92 set(x) *)
Definition vset (h : heap) (v : nat) (x : list Z) : res heap :=
  do o <- get h v;
  if Z.of_nat (length x) =? v_size o then Ok (write h (v_block o) (v_off o) x) else Throw.
(* Variable.cpp:94-104 set(idx, value) *)
Definition vsetI (h : heap) (v : nat) (idx x : Z) : res heap :=
  do o <- get h v;
  if (0 <=? idx) && (idx <? v_size o) then Ok (write h (v_block o) (v_off o + idx) [x]) else Throw.
(* Variable.cpp:106-116 set(idx, length, value) *)
Definition vsetS (h : heap) (v : nat) (idx len : Z) (x : list Z) : res heap :=
  do o <- get h v;
  if (0 <=? idx) && (idx + len <=? v_size o) && (Z.of_nat (length x) =? len)
  then Ok (write h (v_block o) (v_off o + idx) x) else Throw.
(* Variable.cpp:118 setZero *)
Definition vsetZero (h : heap) (v : nat) : res heap :=
  do o <- get h v; Ok (write h (v_block o) (v_off o) (zeros (v_size o))).

(* Programs. *)
Inductive vop :=
| VNew (s : space)
| VDot (v n : nat) (auto : bool)
| VSub (v : nat) (s shift : space) (auto : bool)
| VSet (v : nat) (x : list Z)
| VSetI (v : nat) (idx x : Z)
| VSetS (v : nat) (idx len : Z) (x : list Z)
| VZero (v : nat).
Definition vstep (h : heap) (o : vop) : res heap :=
  match o with
  | VNew s => Ok (fst (newVar h s))
  | VDot v n a => do (h1, _) <- dot h v n a; Ok h1
  | VSub v s sh a => do (h1, _) <- subvariable h v s sh a; Ok h1
  | VSet v x => vset h v x
  | VSetI v i x => vsetI h v i x
  | VSetS v i n x => vsetS h v i n x
  | VZero v => vsetZero h v
  end.
(* A throwing call leaves the heap as it was (the tests come first). *)
Fixpoint vrun (h : heap) (l : list vop) : res heap :=
  match l with
  | [] => Ok h
  | o :: l' => match vstep h o with Ok h1 => vrun h1 l' | Throw => vrun h l' | UB => UB end
  end.
