(* C22, C23, C25: what assignments write in the matrices of a solver. *)
Require Import QArith List Arith Lia Lqa Bool.
Require Import Verif.Base Verif.QSum Verif.AssignModel Verif.AssignSpec Verif.AssignProofs Verif.AssignProofs4 Verif.AssignProofs5 Verif.AssignProofs6 Verif.AssignProofs7.
Import ListNotations.
Local Open Scope Q_scope.

(* C22. A point satisfies the rows written in the target iff it satisfies the constraint, whatever
   runs came before. For a single-sided constraint in a double-sided target the other side is
   +-big: the target must not be OPPOSITE (C22_opposite_refuted) and the value within +-big. *)
Theorem C22_feasible sqrtf big v_size vars mapping src tgt r scal g Vs V m x :
  layout v_size vars mapping -> NoDup (c_vars src) -> agrees v_size src [] V -> default_one sqrtf r ->
  construct sqrtf big v_size mapping src tgt [] r scal = Ok g ->
  clean v_size mapping vars src [] tgt (mA m) ->
  (forall i, (i < c_size src)%nat -> 0 < row_weight sqrtf r scal i) ->
  (single_to_double src tgt -> t_rhs tgt = AS_GIVEN /\ forall i, (i < c_size src)%nat -> - big <= lhs v_size V (c_vars src) x i <= big) ->
  (rows_hold v_size mapping vars tgt (run v_size V tgt g (runs v_size tgt g Vs m)) x <-> satisfied v_size src V x).
Proof. exact (feasible_plain sqrtf big v_size vars mapping src tgt r scal g Vs V m x). Qed.
(* Exactly the compatible targets are accepted. *)
Theorem C22_accepts sqrtf big v_size mapping src tgt sub r scal :
  (exists g, construct sqrtf big v_size mapping src tgt sub r scal = Ok g) <->
  compatible src tgt (existsb (fun s => s_bnz (snd s)) sub) /\ has_columns v_size mapping src sub.
Proof. exact (construct_ok sqrtf big v_size mapping src tgt sub r scal). Qed.
(* Rows outside the range of the target are left alone. *)
Theorem C22_frame v_size V t g m r : (r < t_start t \/ t_start t + t_dim t <= r)%nat ->
  let m' := run v_size V t g m in
  (forall c, mA m' r c = mA m r c) /\ mb m' r = mb m r /\ ml m' r = ml m r /\ mu m' r = mu m r.
Proof. exact (run_frame v_size V t g m r). Qed.

(* C25. With substitutions: the rows hold at the remaining variables iff the constraint holds at the
   point completed with the values of the substituted variables. *)
Theorem C25_feasible sqrtf big v_size vars mapping src tgt sub r scal g Vs V m x :
  layout v_size vars mapping -> resolved src sub -> agrees v_size src sub V -> default_one sqrtf r ->
  construct sqrtf big v_size mapping src tgt sub r scal = Ok g ->
  clean v_size mapping vars src sub tgt (mA m) ->
  (forall i, (i < c_size src)%nat -> 0 < row_weight sqrtf r scal i) ->
  (single_to_double src tgt -> t_rhs tgt = AS_GIVEN /\ forall i, (i < c_size src)%nat ->
     - big <= lhs v_size V (c_vars src) (completed v_size sub V x) i - lhs v_size V (c_vars src) (completed v_size sub V origin) i <= big) ->
  (rows_hold v_size mapping vars tgt (run v_size V tgt g (runs v_size tgt g Vs m)) x <-> satisfied v_size src V (completed v_size sub V x)).
Proof. exact (feasible_construct sqrtf big v_size vars mapping src tgt sub r scal g Vs V m x). Qed.

(* C23. The residuals are those of the constraint times the weight, after the construction ... *)
Theorem C23_constructed sqrtf big v_size vars mapping src tgt sub r scal g Vs V m :
  layout v_size vars mapping -> resolved src sub -> agrees v_size src sub V -> default_one sqrtf r ->
  construct sqrtf big v_size mapping src tgt sub r scal = Ok g ->
  clean v_size mapping vars src sub tgt (mA m) ->
  weighted_rows v_size mapping vars src tgt sub (row_weight sqrtf r scal) V (run v_size V tgt g (runs v_size tgt g Vs m)).
Proof. exact (weighted_construct sqrtf big v_size vars mapping src tgt sub r scal g Vs V m). Qed.
(* ... and after any history of updates of the weights and runs. Full statement: for all updates;
   proper_hist excludes those of C23_stale_refuted. *)
Theorem C23_history_partial sqrtf big v_size vars mapping src tgt sub q scal g0 h g Vs V m0 m :
  layout v_size vars mapping -> resolved src sub -> agrees v_size src sub V -> default_one sqrtf (Some q) ->
  construct sqrtf big v_size mapping src tgt sub (Some q) scal = Ok g0 ->
  clean v_size mapping vars src sub tgt (mA m0) -> proper_hist sqrtf q (map fst h) ->
  life sqrtf big v_size mapping src tgt sub scal h g0 (runs v_size tgt g0 Vs m0) = Ok (g, m) ->
  weighted_rows v_size mapping vars src tgt sub (row_weight sqrtf (Some (last_req q (map fst h))) scal) V (run v_size V tgt g m).
Proof. exact (weighted_life sqrtf big v_size vars mapping src tgt sub q scal g0 h g Vs V m0 m). Qed.

(* A case: variables 0 (size 2) and 1 (size 1) of the solver, variable 2 (size 2) replaced by
   x2 = S x0 + T x1 + b; a double-sided constraint of 2 rows on 0 and 2, with J(2) = -identity,
   in a LOWER_THAN, OPPOSITE target of 4 rows. *)
Definition ex_size (y : nat) : nat := match y with O => 2 | 1 => 1 | 2 => 2 | _ => 0 end%nat.
Definition ex_map (y : nat) : option nat := match y with O => Some 0 | 1 => Some 2 | _ => None end%nat.
Definition ex_src : source := mkSource DOUBLE_SIDED AS_GIVEN 2 [0; 2]%nat (fun y => if Nat.eqb y 2 then PMinusId else PGen).
Definition ex_tgt : target := mkTarget LOWER_THAN OPPOSITE 1 4.
Definition ex_sub : substs := [(2, mkSubst [0; 1] true)]%nat.
Definition ex_val : values :=
  mkVal (fun y i k => if Nat.eqb y 2 then (if Nat.eqb i k then -(1) else 0) else inject_Z (Z.of_nat (3 * i + k)) + 1)
        (fun _ => 0) (fun _ => -(2)) (fun i => inject_Z (Z.of_nat i))
        (fun _ z j k => inject_Z (Z.of_nat (j + 2 * k + z))) (fun _ j => inject_Z (Z.of_nat j) - 3).
Definition ex_mem : mem := mkMem (fun _ _ => 0) (fun _ => 7) (fun _ => 7) (fun _ => 7).
Definition ex_q : reqs := mkReq 4 false (fun _ => 1) true 2.
Definition ex_q2 : reqs := mkReq 9 false (fun i => inject_Z (Z.of_nat i) + 1) false 4.
Definition ex_sqrt (q : Q) : Q := if Qeq_bool q 4 then 2 else if Qeq_bool q 9 then 3 else q.
Lemma ex_layout : layout ex_size [0; 1]%nat ex_map.
Proof.
  split; [repeat constructor; simpl; lia|]. split.
  - intros y. unfold ex_map. destruct y as [|[|y]]; simpl; split; intros H; try congruence; try lia; auto.
  - intros y z c c' N. unfold ex_map. destruct y as [|[|y]], z as [|[|z]]; simpl; intros A B k k' K K'; try congruence;
      injection A as <-; injection B as <-; lia.
Qed.
Lemma ex_resolved : resolved ex_src ex_sub.
Proof.
  split; [repeat constructor; simpl; lia|]. intros y u. simpl. destruct y as [|[|[|y]]]; simpl; intros F; try discriminate.
  injection F as <-. simpl. split; [repeat constructor; simpl; lia|]. intros z [<-|[<-|[]]]; reflexivity.
Qed.
Lemma ex_agrees : agrees ex_size ex_src ex_sub ex_val.
Proof.
  split; [|split].
  - intros y [<-|[<-|[]]] P; discriminate P.
  - intros y [<-|[<-|[]]] P; try discriminate P. split; [reflexivity|]. intros i k. simpl. destruct (Nat.eqb i k); reflexivity.
  - intros y u F B. simpl in F. destruct y as [|[|[|y]]]; simpl in F; try discriminate. injection F as <-. discriminate B.
Qed.
Lemma ex_clean s sub : clean ex_size ex_map [0; 1]%nat s sub ex_tgt (mA ex_mem).
Proof. intros r y k _ _ _ _ _. reflexivity. Qed.
Example C25_ex : exists g, construct ex_sqrt 1000 ex_size ex_map ex_src ex_tgt ex_sub (Some ex_q) 1 = Ok g /\
  (forall i, (i < 2)%nat -> 0 < row_weight ex_sqrt (Some ex_q) 1 i) /\ ~ single_to_double ex_src ex_tgt /\
  default_one ex_sqrt (Some ex_q) /\
  (* two runs: the rows do not depend on what the first one left *)
  mA (run ex_size ex_val ex_tgt g (run ex_size ex_val ex_tgt g ex_mem)) 1%nat 0%nat == 2 /\
  mb (run ex_size ex_val ex_tgt g (run ex_size ex_val ex_tgt g ex_mem)) 4%nat == - (8).
Proof.
  eexists. split; [vm_compute; reflexivity|]. split; [intros i _; vm_compute; reflexivity|].
  split; [intros [[A|A] _]; discriminate A|]. split; [intros A; discriminate A|]. split; vm_compute; reflexivity.
Qed.
Definition ex_src2 : source := mkSource DOUBLE_SIDED AS_GIVEN 2 [0; 1]%nat (fun _ => PGen).
Example C22_ex : exists g, construct ex_sqrt 1000 ex_size ex_map ex_src2 ex_tgt [] None 1 = Ok g /\ agrees ex_size ex_src2 [] ex_val /\
  (forall i, (i < 2)%nat -> 0 < row_weight ex_sqrt None 1 i) /\
  satisfied ex_size ex_src2 ex_val (fun _ _ => 0) /\ ~ satisfied ex_size ex_src2 ex_val (fun _ _ => 1).
Proof.
  eexists. split; [vm_compute; reflexivity|].
  split; [split; [|split]; [intros y _ P; discriminate P|intros y _ P; discriminate P|intros y u F; discriminate F]|].
  split; [intros; reflexivity|]. split.
  - intros i I. simpl in I. destruct i as [|[|i]]; [| |lia]; vm_compute; split; discriminate.
  - intros H. specialize (H 0%nat ltac:(simpl; lia)). vm_compute in H. destruct H as [_ H]. apply H. reflexivity.
Qed.
(* the scalar weight, then both weights change *)
Example C23_ex : exists g0 g m,
  construct ex_sqrt 1000 ex_size ex_map ex_src ex_tgt ex_sub (Some ex_q) 2 = Ok g0 /\
  let h := [((mkReq 9 false (fun _ => 1) true 2, true, false), [ex_val]); ((ex_q2, true, true), [])] in
  life ex_sqrt 1000 ex_size ex_map ex_src ex_tgt ex_sub 2 h g0 ex_mem = Ok (g, m) /\ proper_hist ex_sqrt ex_q (map fst h) /\
  row_weight ex_sqrt (Some (last_req ex_q (map fst h))) 2 1 == 12.
Proof.
  eexists _, _, _. split; [vm_compute; reflexivity|]. split; [cbv -[Qplus Qmult Qopp Qminus Qinv inject_Z]; reflexivity|].
  split; [|vm_compute; reflexivity]. simpl.
  repeat split; intros; try discriminate; try reflexivity.
Qed.

(* With an OPPOSITE double-sided target, x >= l becomes -x... : the constant +big of the upper side is
   not negated, and a point that satisfies the constraint violates the rows (Assignment.cpp:282, 288). *)
Theorem C22_opposite_refuted : exists sqrtf big v_size vars mapping src tgt g V m x,
  layout v_size vars mapping /\ NoDup (c_vars src) /\ agrees v_size src [] V /\
  construct sqrtf big v_size mapping src tgt [] None 1 = Ok g /\ clean v_size mapping vars src [] tgt (mA m) /\
  1000 <= big /\ (forall i, (i < c_size src)%nat -> - (10) <= lhs v_size V (c_vars src) x i <= 10) /\
  satisfied v_size src V x /\ ~ rows_hold v_size mapping vars tgt (run v_size V tgt g m) x.
Proof.
  pose (src := mkSource GREATER_THAN AS_GIVEN 1 [1%nat] (fun _ => PGen)).
  pose (V := mkVal (fun _ _ _ => 1) (fun _ => 0) (fun _ => 0) (fun _ => 0) (fun _ _ _ _ => 0) (fun _ _ => 0)).
  exists ex_sqrt, 1000, ex_size, [0; 1]%nat, ex_map, src, (mkTarget DOUBLE_SIDED OPPOSITE 0 1).
  eexists. exists V, ex_mem, (fun _ _ => 5).
  split; [exact ex_layout|]. split; [repeat constructor; simpl; lia|].
  split; [split; [|split]; [intros y _ P; discriminate P|intros y _ P; discriminate P|intros y u F; discriminate F]|].
  split; [vm_compute; reflexivity|]. split; [intros r y k _ _ _ _ _; reflexivity|]. split; [vm_compute; discriminate|].
  split; [intros i _; vm_compute; split; discriminate|].
  split; [intros i _; vm_compute; discriminate|].
  intros H. specialize (H 0%nat ltac:(simpl; lia)). vm_compute in H. destruct H as [_ H]. apply H. reflexivity.
Qed.
(* Exactly what the rows of a single-sided constraint in a double-sided target say, with or without
   substitutions, for every sign convention: the constraint and the free side at +-big. *)
Theorem C25_free_side sqrtf big v_size vars mapping src tgt sub r scal g Vs V m x :
  layout v_size vars mapping -> resolved src sub -> agrees v_size src sub V -> default_one sqrtf r ->
  construct sqrtf big v_size mapping src tgt sub r scal = Ok g ->
  clean v_size mapping vars src sub tgt (mA m) ->
  (forall i, (i < c_size src)%nat -> 0 < row_weight sqrtf r scal i) -> single_to_double src tgt ->
  (rows_hold v_size mapping vars tgt (run v_size V tgt g (runs v_size tgt g Vs m)) x <->
   satisfied v_size src V (completed v_size sub V x) /\ far_side v_size big src tgt sub V x).
Proof. exact (far_construct sqrtf big v_size vars mapping src tgt sub r scal g Vs V m x). Qed.
(* Hence no point with a value within +-big satisfies the rows in an OPPOSITE target. *)
Theorem C25_opposite_none sqrtf big v_size vars mapping src tgt sub r scal g Vs V m x :
  layout v_size vars mapping -> resolved src sub -> agrees v_size src sub V -> default_one sqrtf r ->
  construct sqrtf big v_size mapping src tgt sub r scal = Ok g ->
  clean v_size mapping vars src sub tgt (mA m) ->
  (forall i, (i < c_size src)%nat -> 0 < row_weight sqrtf r scal i) -> single_to_double src tgt -> t_rhs tgt = OPPOSITE ->
  (exists i, (i < c_size src)%nat /\
     - big < lhs v_size V (c_vars src) (completed v_size sub V x) i - lhs v_size V (c_vars src) (completed v_size sub V origin) i < big) ->
  ~ rows_hold v_size mapping vars tgt (run v_size V tgt g (runs v_size tgt g Vs m)) x.
Proof. exact (opposite_none sqrtf big v_size vars mapping src tgt sub r scal g Vs V m x). Qed.
(* A case with a substitution: x2 = S x0 + T x1 + b in a GREATER_THAN constraint, OPPOSITE double-sided target. *)
Definition ex_src3 : source := mkSource GREATER_THAN AS_GIVEN 2 [0; 2]%nat (fun y => if Nat.eqb y 2 then PMinusId else PGen).
Definition ex_tgt3 : target := mkTarget DOUBLE_SIDED OPPOSITE 1 2.
Theorem C25_opposite_refuted : exists g x, resolved ex_src3 ex_sub /\ agrees ex_size ex_src3 ex_sub ex_val /\
  construct ex_sqrt 1000 ex_size ex_map ex_src3 ex_tgt3 ex_sub (Some ex_q) 1 = Ok g /\
  clean ex_size ex_map [0; 1]%nat ex_src3 ex_sub ex_tgt3 (mA ex_mem) /\
  (forall i, (i < 2)%nat -> 0 < row_weight ex_sqrt (Some ex_q) 1 i) /\ single_to_double ex_src3 ex_tgt3 /\
  (forall i, (i < 2)%nat -> - (20) < lhs ex_size ex_val [0; 2]%nat (completed ex_size ex_sub ex_val x) i < 20) /\
  satisfied ex_size ex_src3 ex_val (completed ex_size ex_sub ex_val x) /\
  ~ rows_hold ex_size ex_map [0; 1]%nat ex_tgt3 (run ex_size ex_val ex_tgt3 g ex_mem) x.
Proof.
  eexists. exists (fun y _ => if Nat.eqb y 0 then 1 else 0).
  split. { split; [repeat constructor; simpl; lia|]. intros y u. simpl. destruct y as [|[|[|y]]]; simpl; intros F; try discriminate.
    injection F as <-. simpl. split; [repeat constructor; simpl; lia|]. intros z [<-|[<-|[]]]; reflexivity. }
  split. { split; [|split].
    - intros y [<-|[<-|[]]] P; discriminate P.
    - intros y [<-|[<-|[]]] P; try discriminate P. split; [reflexivity|]. intros i k. simpl. destruct (Nat.eqb i k); reflexivity.
    - intros y u F B. simpl in F. destruct y as [|[|[|y]]]; simpl in F; try discriminate. injection F as <-. discriminate B. }
  split; [vm_compute; reflexivity|]. split; [intros r y k _ _ _ _ _; reflexivity|].
  split; [intros i _; vm_compute; reflexivity|]. split; [split; [left; reflexivity|reflexivity]|].
  split; [intros i I; destruct i as [|[|i]]; [| |lia]; vm_compute; split; reflexivity|].
  split; [intros i I; simpl in I; destruct i as [|[|i]]; [| |lia]; vm_compute; discriminate|].
  intros H. specialize (H 0%nat ltac:(simpl; lia)). vm_compute in H. destruct H as [_ H]. apply H. reflexivity.
Qed.
(* The scalar weight changes while the objective has an anisotropic weight: the rows keep the old
   scalar weight (Assignment.cpp:91-98 does not recompute anisotropicWeight_). *)
Theorem C23_stale_refuted : exists sqrtf big v_size vars mapping src tgt q q' g0 g V m i,
  layout v_size vars mapping /\ resolved src [] /\ agrees v_size src [] V /\
  construct sqrtf big v_size mapping src tgt [] (Some q) 1 = Ok g0 /\ clean v_size mapping vars src [] tgt (mA m) /\
  q_wdef q' = false /\ q_adef q' = q_adef q /\ q_aniso q' = q_aniso q /\ (i < c_size src)%nat /\
  updateWeights sqrtf big v_size mapping src tgt [] q' 1 true false g0 = Ok g /\
  (exists x, ~ rowval v_size mapping vars (mA (run v_size V tgt g m)) x (t_start tgt + i) ==
               row_weight sqrtf (Some q') 1 i * lhs v_size V (c_vars src) x i) /\
  ~ weighted_rows v_size mapping vars src tgt [] (row_weight sqrtf (Some q') 1) V (run v_size V tgt g m).
Proof.
  pose (src := mkSource EQUAL AS_GIVEN 1 [1%nat] (fun _ => PGen)).
  pose (V := mkVal (fun _ _ _ => 1) (fun _ => 0) (fun _ => 0) (fun _ => 0) (fun _ _ _ _ => 0) (fun _ _ => 0)).
  exists ex_sqrt, 1000, ex_size, [0; 1]%nat, ex_map, src, (mkTarget EQUAL AS_GIVEN 0 1).
  exists (mkReq 4 false (fun _ => 9) false 1), (mkReq 9 false (fun _ => 9) false 1).
  eexists _, _. exists V, ex_mem, 0%nat.
  split; [exact ex_layout|]. split; [split; [repeat constructor; simpl; lia|intros y u F; discriminate F]|].
  split; [split; [|split]; [intros y _ P; discriminate P|intros y _ P; discriminate P|intros y u F; discriminate F]|].
  split; [vm_compute; reflexivity|]. split; [intros r y k _ _ _ _ _; reflexivity|].
  split; [reflexivity|]. split; [reflexivity|]. split; [reflexivity|]. split; [simpl; lia|].
  split; [vm_compute; reflexivity|]. split.
  - exists (fun _ _ => 1). vm_compute. discriminate.
  - intros H. specialize (H 0%nat (fun _ _ => 1) ltac:(simpl; lia)). vm_compute in H. discriminate H.
Qed.

Print Assumptions C22_feasible.
Print Assumptions C22_accepts.
Print Assumptions C22_frame.
Print Assumptions C22_opposite_refuted.
Print Assumptions C23_constructed.
Print Assumptions C23_history_partial.
Print Assumptions C23_stale_refuted.
Print Assumptions C25_feasible.
Print Assumptions C25_free_side.
Print Assumptions C25_opposite_none.
Print Assumptions C25_opposite_refuted.
