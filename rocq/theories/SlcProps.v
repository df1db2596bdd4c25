(* C87: the properties of the jacobians and of their slices *)
Require Import Arith.
From mathcomp Require Import all_ssreflect all_algebra.
Require Import Verif.Base Verif.MatPropModel Verif.MatPropSpec.
Require Import Verif.SlcModel Verif.SlcSpec Verif.SlcProofs Verif.SlcProofs2.
Set Implicit Arguments.
Unset Strict Implicit.
Unset Printing Implicit Defensive.
Import GRing.Theory Num.Theory.
Local Open Scope ring_scope.

(* A slice taken from a constant matrix is made of the columns asked for. All that its
   properties say is true of it if it is so for the matrix, and it is said to be zero, or
   constant, exactly if the matrix is. No exception is thrown. T: the states of the program. *)
Theorem C87_slice (R : realFieldType) (T : Type) p m n s d (E : T -> nat -> nat -> R) :
  built p -> has p (fun t => matOf (mkMat m n (E t))) -> (s + d <= n)%N ->
  exists q, built q /\
    (forall t, constSlice (mkObj (mkMat m n (E t)) p) s d = Ok (mkObj (mkMat m d (fun i j => E t i (s + j)%N)) q)) /\
    has q (fun t => matOf (mkMat m d (fun i j => E t i (s + j)%N))) /\
    isZero q = isZero p /\ isConstant q = isConstant p.
Proof. exact: slice_ok. Qed.

(* An operation on the matrix, or through a slice of a matrix which is not constant, is defined
   exactly if the sizes fit. It changes the columns referred to, as it says, and nothing
   else. The properties of the whole matrix are reset, unless they are kept or given. *)
Theorem C87_write (K : Type) (add sub : K -> K -> K) (o : obj K) t c :
  ((exists o', step add sub o (t, c) = Ok o') <->
   exists d, fits (mx o) t d /\
     forall e f, writes add sub (mx o) t c = Some (e, f) -> nr e = nr (mx o) /\ nc e = d) /\
  (forall o', step add sub o (t, c) = Ok o' ->
     pr o' = leaves o c /\
     match writes add sub (mx o) t c with
     | Some (_, f) => replaced (mx o) t f (mx o')
     | None => mx o' = mx o
     end).
Proof. exact: step_spec. Qed.

(* So the properties of the matrix stay true through any sequence of operations, on the
   matrix or through slices, if those declared are properties of the whole matrix. *)
Theorem C87_history (R : realFieldType) (l : list (target * op R)) : forall o o',
  sound o -> honest o l -> steps +%R (fun x y => x - y) o l = Ok o' -> sound o'.
Proof. exact: history_ok. Qed.

(* Adding a term to a linear function for a variable, or a part of a variable, already there
   adds the matrix to the columns of it, and leaves properties which say "constant" only. *)
Theorem C87_add (K : Type) (add sub : K -> K -> K) (o : obj K) t A d :
  fits (mx o) t d -> nr A = nr (mx o) -> nc A = d ->
  exists o', addTo add sub o t A = Ok o' /\
    replaced (mx o) t (fun i k => add (entry (mx o) t i k) (en A i k)) (mx o') /\
    pr o' = mkP true false GENERAL false NA.
Proof. exact: add_ok. Qed.

(* False: what a slice of a matrix which is not constant reports is true of the slice. One
   column of the identity is reported to be an identity. *)
Theorem C87_view_refuted (R : realFieldType) : exists (o : obj R) s d c p,
  built (pr o) /\ sound o /\ view o (Cols s d) = Ok c /\ viewProps o (Cols s d) = Ok p /\ ~ says (matOf c) p.
Proof. exact: view_wrong. Qed.
(* False: declaring for such a slice what is true of it leaves true properties. Declaring a
   zero column to be zero declares the whole matrix to be zero. *)
Theorem C87_declare_refuted (R : realFieldType) : exists (o o' : obj R) s d c p,
  sound o /\ built p /\ view o (Cols s d) = Ok c /\ says (matOf c) p /\
  step +%R (fun x y => x - y) o (Cols s d, SetProps p) = Ok o' /\ ~ sound o'.
Proof. exact: declare_wrong. Qed.

(* Cases meeting the hypotheses: the identity of size 2, its second column, and 1 added to it. *)
Example C87_slice_case (R : realFieldType) : sound (id2 R) /\
  constSlice (id2 R) 1 1 = Ok (mkObj (mkMat 2 1 (fun i j => if i == (1 + j)%coq_nat then 1 else 0)) (mkP true false GENERAL false NA)).
Proof. by split; [exact: id2_sound|]. Qed.
Example C87_write_case : forall o', step plus minus
    (mkObj (mkMat 2 2 (fun i j => if i == j then 1 else 0)%N) (mkP true true IDENTITY true PD))
    (Cols 1 1, Plus (mkMat 2 1 (fun i _ => i.+1))) = Ok o' ->
  [seq en (mx o') i j | i <- [:: 0; 1]%N, j <- [:: 0; 1]%N] = [:: 1; 1; 0; 3]%N /\ pr o' = default_props.
Proof. by move=> o' [<-]. Qed.
Example C87_history_case (R : realFieldType) :
  let e : mat R := mkMat 2 1 (fun _ _ => 0) in
  let l := [:: (Cols 1 1, Plus e); (Whole, SetProps (mkP true false GENERAL false NA)); (Cols 0 1, Keep true e)] in
  honest (id2 R) l /\ exists o', steps +%R (fun x y => x - y) (id2 R) l = Ok o'.
Proof.
split; last by eexists.
split=> // o1 [<-]; split; first exact: says_nothing.
move=> o2 [<-]; split=> // N _; exact: says_nothing.
Qed.
Example C87_add_case : exists o', addTo plus minus (mkObj (mkMat 1 2 (fun _ j => j)) default_props) (Cols 1 1)
    (mkMat 1 1 (fun _ _ => 5)%N) = Ok o' /\ [seq en (mx o') 0%N j | j <- [:: 0; 1]%N] = [:: 0; 6]%N.
Proof. by eexists. Qed.

Print Assumptions C87_slice.
Print Assumptions C87_write.
Print Assumptions C87_history.
Print Assumptions C87_add.
Print Assumptions C87_view_refuted.
Print Assumptions C87_declare_refuted.
