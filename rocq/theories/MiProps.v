(* C76: what isInMatrix and hasElemAbsInRange answer. *)
Require Import ZArith QArith List Bool Lia.
Require Import Verif.Base Verif.MiModel Verif.MiSpec Verif.MiProofs.
Import ListNotations.
Local Open Scope Z_scope.

(* A 12-by-10 matrix, a block of it, and every second column of every third row of it *)
Definition exM := mkEmat 1000 12 10 1 12.
Definition exB := block exM 2 3 7 6.
Definition exD := mapOf exM 1 0 4 5 3 2.
(* a matrix of which the columns overlap, as those of a Hankel matrix in a vector *)
Definition exH := mkEmat 1000 3 3 1 1.
(* the transpose of exM seen as a column-major matrix with its strides *)
Definition exT := mkEmat 1000 10 12 12 1.

(* The answer is given for every layout, also without coefficients or with null strides: no division by 0. *)
Theorem C76_defined : forall p M, 0 <= e_rows M -> 0 <= e_cols M -> exists b, isInMatrix p M = Ok b.
Proof. intros p M Hn Hm. destruct (mi_defined p M Hn Hm) as (b & H & _). now exists b. Qed.
Print Assumptions C76_defined.
Example C76_defined_ex : isInMatrix 1000 (mkEmat 1000 3 4 0 0) = Ok false /\ isInMatrix 1000 (mkEmat 1000 0 4 1 0) = Ok false.
Proof. split; reflexivity. Qed.

(* An address said to be in the matrix is the one of a coefficient, for all strides. *)
Theorem C76_sound : forall p M, 0 <= e_rows M -> 0 <= e_cols M -> isInMatrix p M = Ok true -> element p M.
Proof. exact mi_sound. Qed.
Print Assumptions C76_sound.
Example C76_sound_ex : isInMatrix 1002 exH = Ok true /\ element 1002 exH.
Proof. split; [reflexivity|]. exists 2, 0. cbn. lia. Qed.

(* If the columns are one after the other, the answer is exact. *)
Theorem C76_exact : forall M, 0 <= e_rows M -> 0 <= e_cols M -> columns M -> forall p, isInMatrix p M = Ok true <-> element p M.
Proof. exact mi_exact. Qed.
Print Assumptions C76_exact.
Example C76_exact_ex : columns exD /\ isInMatrix 1007 exD = Ok true /\ isInMatrix 1006 exD = Ok false /\ isInMatrix 1013 exD = Ok false.
Proof. repeat split. Qed.

(* And it is exact for no other matrix that has coefficients. *)
Theorem C76_exact_only : forall M, 0 < e_rows M -> 0 < e_cols M ->
  ((forall p, isInMatrix p M = Ok true <-> element p M) <-> columns M).
Proof. intros M Hn Hm. split; [now apply mi_only|]. intros H. apply mi_exact; [lia|lia|exact H]. Qed.
Print Assumptions C76_exact_only.
Example C76_exact_only_ex : columns exM /\ ~ columns exH /\ ~ columns exT.
Proof. repeat split; intros [? H]; cbn in H; lia. Qed.

(* The documentation ("check if a given address belongs to the data of a matrix", any type with a method data) is not met
   by maps whose columns overlap or interleave: addresses of coefficients are said not to be in the matrix. *)
Theorem C76_element_refuted : exists p M, 0 < e_rowStride M /\ 0 < e_colStride M /\ element p M /\ isInMatrix p M = Ok false.
Proof. exists 1003, exH. repeat split. exists 1, 2. cbn. lia. Qed.
Print Assumptions C76_element_refuted.
Theorem C76_transposed_refuted : exists p M, 0 < e_rowStride M /\ 0 < e_colStride M /\
  (forall i j i' j', 0 <= i < e_rows M -> 0 <= j < e_cols M -> 0 <= i' < e_rows M -> 0 <= j' < e_cols M ->
     coeffAddr M i j = coeffAddr M i' j' -> i = i' /\ j = j') /\ element p M /\ isInMatrix p M = Ok false.
Proof.
  exists 1012, exT. split; [reflexivity|]. split; [reflexivity|]. split.
  - unfold coeffAddr, exT; cbn [e_data e_rows e_cols e_rowStride e_colStride]. intros. lia.
  - split; [exists 1, 0; cbn; lia|reflexivity].
Qed.
Print Assumptions C76_transposed_refuted.

(* The coefficients of a matrix that are in a block of it are those of the rows and of the columns of the block. *)
Theorem C76_block : forall A i j h w k l, columns A -> 0 <= h -> 0 <= w -> 0 <= i -> 0 <= j -> i + h <= e_rows A ->
  0 <= k < e_rows A -> 0 <= l < e_cols A ->
  coeffInMatrix A k l (block A i j h w) = Ok (((i <=? k) && (k <? i + h)) && ((j <=? l) && (l <? j + w))).
Proof. exact mi_block. Qed.
Print Assumptions C76_block.
Example C76_block_ex : coeffInMatrix exM 8 8 exB = Ok true /\ coeffInMatrix exM 9 8 exB = Ok false /\ coeffInMatrix exM 8 9 exB = Ok false /\
  coeffInMatrix exB 1 1 (block exB 1 1 3 3) = Ok true.
Proof. repeat split. Qed.

(* Blocks have again their columns one after the other, so that the same holds for the blocks of blocks. *)
Theorem C76_blocks : forall A i j h w, columns A -> h <= e_rows A -> columns (block A i j h w).
Proof. exact block_columns. Qed.
Print Assumptions C76_blocks.
Example C76_blocks_ex : columns exM /\ 7 <= e_rows exM /\ columns exB.
Proof. repeat split; cbn; lia. Qed.

(* A map that takes one row in r and one column in c. *)
Theorem C76_steps : forall A i j h w r c k l, columns A -> 0 <= h -> 0 <= w -> 0 < r -> 0 < c -> 0 <= i -> 0 <= j ->
  (0 < h -> i + (h - 1) * r < e_rows A) -> 0 <= k < e_rows A -> 0 <= l < e_cols A ->
  coeffInMatrix A k l (mapOf A i j h w r c) = Ok true <-> (exists a b, 0 <= a < h /\ 0 <= b < w /\ k = i + a * r /\ l = j + b * c).
Proof. exact mi_map. Qed.
Print Assumptions C76_steps.
Example C76_steps_ex : coeffInMatrix exM 10 8 exD = Ok true /\ coeffInMatrix exM 10 7 exD = Ok false /\ coeffInMatrix exM 9 8 exD = Ok false.
Proof. repeat split. Qed.

(* hasElemAbsInRange: some coefficient has its absolute value in the range; those that are not numbers are never. *)
Theorem C76_range : forall A a b, hasElemAbsInRange A a b = true <-> exists x, In x A /\ between a x b.
Proof. exact has_spec. Qed.
Print Assumptions C76_range.
Example C76_range_ex : hasElemAbsInRange [Fin 1; Nan; Fin (-3)] (Fin 2) (Fin 3) = true /\ hasElemAbsInRange [Nan; Inf true] (Fin 0) (Fin 3) = false /\
  hasElemAbsInRange [Inf true] (Fin 0) (Inf false) = true /\ hasElemAbsInRange [Nan] (Inf true) (Inf false) = false /\ hasElemAbsInRange [] (Fin 0) (Inf false) = false.
Proof. repeat split. Qed.
