(* C32: diagonal substitution calculators. *)
From Coq Require Import List Bool Arith ZArith QArith Sorted Lia.
Import ListNotations.
From Verif Require Import Base QSum DiagModel DiagSpec DiagProofs DiagProofs2.
Local Open Scope nat_scope.

Definition geti (x : res impl) : impl := match x with Ok d => d | _ => mkI 0 0 0 [] [] [] [] (fun _ _ => 0%Q) end.
(* the example of DiagonalCalculator.h:79-84, indices given in disorder *)
Definition c1 := mkCalc (-1) (-1) [0; 2; 3]%Z [1; 4]%Z.
Definition d1 := geti (newImpl c1 true 5 6 3).
Definition A1 : mat := fun i j => if (i =? j) && ((i =? 0) || (i =? 2) || (i =? 3)) then inject_Z (Z.of_nat i + 2) else 0%Q.
Example d1_made : made 5 6 3 (fun i => In i [0; 2; 3]) (fun i => In i [1; 4]) d1.
Proof.
  right. exists [3; 0; 2]%Z, [4; 1]%Z, c1. split; [reflexivity|]. split; [reflexivity|].
  split; intros i; simpl; intuition lia.
Qed.
Example A1_structured : structured 5 6 (fun i => In i [0; 2; 3]) (fun i => In i [1; 4]) [0; 1; 2; 3; 4] A1.
Proof.
  split; [repeat constructor|]. split; [reflexivity|]. split; [simpl; tauto|].
  split; [simpl; intuition lia|]. intros i j Li Lj.
  do 5 (destruct i as [|i]; [do 6 (destruct j as [|j]; [vm_compute; intuition (try discriminate; try lia)|]); lia|]); lia.
Qed.
(* contiguous rows: rows 1 and 2 of a diagonal matrix of size 4 *)
Definition d2 := geti (newImpl (mkCalc 1 2 [] []) true 2 4 2).
Definition A2 : mat := fun i j => if j =? S i then 5%Q else 0%Q.
Example d2_made : made 2 4 2 (fun i => 1 <= i < 3) (fun _ => False) d2.
Proof.
  left. exists 1%Z, 2%Z, (mkCalc 1 2 [] []). split; [reflexivity|]. split; [reflexivity|].
  split; intros i; simpl; lia.
Qed.
Example A2_structured : structured 2 4 (fun i => 1 <= i < 3) (fun _ => False) [1; 2] A2.
Proof.
  split; [repeat constructor|]. split; [reflexivity|]. split; [simpl; intros; lia|].
  split; [tauto|]. intros i j Li Lj.
  do 2 (destruct i as [|i]; [do 4 (destruct j as [|j]; [vm_compute; intuition (try discriminate; try lia)|]); lia|]); lia.
Qed.

(* The matrix applied is a generalized inverse; the call has no result only if the index of a zero
   row is beyond the last row of A (see C32_left_null_refuted). *)
Theorem C32_generalized_inverse : forall m n r nnz zeros d rows A,
  made m n r nnz zeros d -> structured m n nnz zeros rows A ->
  exists inv Ash, update_ d A = Ok inv /\ eqm m n (mul m (mul n A Ash) A) A /\
    forall minus outA outS inM, match premultiply d inv minus outA outS inM with
      | Ok (oA, oS) => forall p, eqm n p oA (if minus then opp (mul m Ash inM) else mul m Ash inM)
      | Throw => False
      | UB => exists z, zeros z /\ m <= z
      end.
Proof. exact asharp. Qed.
Print Assumptions C32_generalized_inverse.

(* N is a basis of the null space of A and postMultiplyByN multiplies by it. *)
Theorem C32_null_space : forall m n r nnz zeros d rows A,
  made m n r nnz zeros d -> structured m n nnz zeros rows A ->
  nullBasis m n (n - r) A (i_N d) /\
  forall add out inM, exists o, postMultiplyByN d add out inM = Ok o /\
    forall a b, b < n - r -> (o a b == if add : bool then out a b + mul n inM (i_N d) a b else mul n inM (i_N d) a b)%Q.
Proof. exact null_space. Qed.
Print Assumptions C32_null_space.

(* When every row before a zero row is selected, the second output is S^T times the input with S a
   basis of the null space of A^T. *)
Theorem C32_left_null_partial : forall m n r nnz zeros d rows A,
  made m n r nnz zeros d -> structured m n nnz zeros rows A -> full nnz zeros ->
  exists inv St, update_ d A = Ok inv /\ nullBasis n m (m - r) (tr A) St /\
    forall minus outA outS inM, exists oA oS, premultiply d inv minus outA outS inM = Ok (oA, oS) /\
      forall p, eqm (m - r) p oS (mul m (tr St) inM).
Proof. exact left_null. Qed.
Print Assumptions C32_left_null_partial.
Example d1_full : full (fun i => In i [0; 2; 3]) (fun i => In i [1; 4]).
Proof. intros z Hz j L. simpl in *. lia. Qed.

(* That condition is necessary: if S^T A is computed, and is zero, all rows before are selected. *)
Theorem C32_left_null_condition : forall m n r nnz zeros d rows A inv minus outA outS oA oS,
  made m n r nnz zeros d -> structured m n nnz zeros rows A -> update_ d A = Ok inv ->
  premultiply d inv minus outA outS A = Ok (oA, oS) -> eqm (m - r) n oS zero -> full nnz zeros.
Proof. exact left_null_only_full. Qed.
Print Assumptions C32_left_null_condition.

(* nnzRows = {0,3}, zeroRows = {2}: S^T selects the row of the non-zero element 3. *)
Definition d3 := geti (newImpl (mkCalc (-1) (-1) [0; 3]%Z [2]%Z) true 3 4 2).
Definition A3 : mat := fun i j => if (i =? 0) && (j =? 0) then 1%Q else if (i =? 2) && (j =? 3) then 1%Q else 0%Q.
Theorem C32_left_null_refuted : exists m n r nnz zeros d rows A inv oA oS, made m n r nnz zeros d /\
  structured m n nnz zeros rows A /\ update_ d A = Ok inv /\ premultiply d inv false zero zero A = Ok (oA, oS) /\
  ~ eqm (m - r) n oS zero.
Proof.
  exists 3, 4, 2, (fun i => In i [0; 3]), (fun i => In i [2]), d3, [0; 2; 3], A3. do 3 eexists.
  split; [|split; [|split; [reflexivity|split; [reflexivity|]]]].
  - right. exists [0; 3]%Z, [2]%Z, (mkCalc (-1) (-1) [0; 3]%Z [2]%Z). split; [reflexivity|]. split; [reflexivity|].
    split; intros i; simpl; intuition lia.
  - split; [repeat constructor|]. split; [reflexivity|]. split; [simpl; tauto|].
    split; [simpl; intuition lia|]. intros i j Li Lj.
    do 3 (destruct i as [|i]; [do 4 (destruct j as [|j]; [vm_compute; intuition (try discriminate; try lia)|]); lia|]); lia.
  - intros H. specialize (H 0 3 ltac:(lia) ltac:(lia)). vm_compute in H. discriminate.
Qed.
Print Assumptions C32_left_null_refuted.
(* nnzRows = {0}, zeroRows = {3}: the call reads row 3 of a matrix with 2 rows. *)
Theorem C32_zero_row_out_of_bounds_refuted : exists m n r nnz zeros d rows A inv, made m n r nnz zeros d /\
  structured m n nnz zeros rows A /\ update_ d A = Ok inv /\ premultiply d inv false zero zero A = UB.
Proof.
  exists 2, 4, 1, (fun i => In i [0]), (fun i => In i [3]), (geti (newImpl (mkCalc (-1) (-1) [0]%Z [3]%Z) true 2 4 1)), [0; 3],
    (fun i j => if (i =? 0) && (j =? 0) then 1%Q else 0%Q). eexists.
  split; [|split; [|split; [reflexivity|reflexivity]]].
  - right. exists [0]%Z, [3]%Z, (mkCalc (-1) (-1) [0]%Z [3]%Z). split; [reflexivity|]. split; [reflexivity|].
    split; intros i; simpl; intuition lia.
  - split; [repeat constructor|]. split; [reflexivity|]. split; [simpl; tauto|].
    split; [simpl; intuition lia|]. intros i j Li Lj.
    do 2 (destruct i as [|i]; [do 4 (destruct j as [|j]; [vm_compute; intuition (try discriminate; try lia)|]); lia|]); lia.
Qed.
Print Assumptions C32_zero_row_out_of_bounds_refuted.

(* After any sequence of updates the inverse is that of the last jacobian, provided a jacobian
   declared constant is. *)
Theorem C32_updates : forall constant d l A inv0 s, (constant = true -> forall B, In B l -> B = A) ->
  updates constant d (l ++ [A]) (inv0, true) = Ok s -> update_ d A = Ok (fst s).
Proof. exact updates_last. Qed.
Print Assumptions C32_updates.
Example updates_ex : exists s, updates false d1 [fun i j => (2 * A1 i j)%Q; A1] ([], true) = Ok s /\ nth 1 (fst s) 0%Q = (1 # 4)%Q.
Proof. eexists. split; reflexivity. Qed.
