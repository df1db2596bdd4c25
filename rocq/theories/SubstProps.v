(* C33: elimination by substitution. *)
From Coq Require Import List Bool Arith QArith Lia Lqa.
Import ListNotations.
From Verif Require Import Base QSum SubstModel SubstSpec SubstProofs5 SubstProofs6.
From Verif Require DiagSpec.
Local Open Scope nat_scope.

(* Two dependent substitutions: x0 of size 2 by one row (one free variable z), then x1 of size 1 by a
   constraint of size 2 that uses x0 (one row remains); variable 2 is kept. *)
Definition sz1 (v : nat) : nat := match v with 0 => 2 | 1 => 1 | 2 => 1 | _ => 0 end.
Definition l1 : list sub := [mkSub [mkCst 1 [0; 2] AS_GIVEN] [0] 1; mkSub [mkCst 2 [1; 0; 2] OPPOSITE] [1] 1].
Definition d1 : data := mkD
  (fun k _ v => match k, v with
     | 0, 0 => fun _ b => if b =? 0 then 1%Q else 0%Q
     | 0, _ => fun _ _ => 3%Q
     | _, 1 => fun a _ => if a =? 0 then 1%Q else 0%Q
     | _, 0 => fun _ _ => 2%Q
     | _, _ => fun _ _ => 1%Q end)
  (fun _ _ _ => 1%Q)
  (fun k => match k with
     | 0 => mkCalc (fun a _ => if a =? 0 then 1%Q else 0%Q) (fun a _ => if a =? 1 then 1%Q else 0%Q) (fun _ _ => 0%Q)
     | _ => mkCalc (fun _ b => if b =? 0 then 1%Q else 0%Q) (fun _ _ => 0%Q) (fun a _ => if a =? 1 then 1%Q else 0%Q) end).
Definition s00 : ust := mkS (fun _ _ _ => 7%Q) (fun _ _ _ => 7%Q) (fun _ => 7%Q) (fun _ _ _ => 7%Q) (fun _ _ _ => 7%Q) (fun _ => 7%Q)
  (fun _ _ _ _ => 7%Q) (fun _ _ _ _ => 7%Q) (fun _ _ => 7%Q) [] [].
Example l1_wellFormed : wellFormed l1 /\ ordered l1.
Proof.
  split.
  - split; [repeat constructor; simpl; intuition lia|]. intros s c [<-|[<-|[]]] [<-|[]]; repeat constructor; simpl; intuition lia.
  - intros a s b c v E Ic Iv. destruct a as [|x [|y a]]; simpl in E.
    + injection E as <- <-. destruct Ic as [<-|[]]. simpl in *. intuition lia.
    + injection E as <- <- <-. simpl. tauto.
    + injection E as _ _ E. destruct a; discriminate.
Qed.
(* small contracts, given the entries *)
Local Ltac q := unfold DiagSpec.mulv, DiagSpec.mul, DiagSpec.tr, DiagSpec.zero, qsumn in *; simpl in *.
Lemma contract_row (A : mat) : (A 0%nat 0%nat == 1)%Q -> (A 0%nat 1%nat == 0)%Q ->
  contract 1 2 1 A (mkCalc (fun a _ => if a =? 0 then 1%Q else 0%Q) (fun a _ => if a =? 1 then 1%Q else 0%Q) (fun _ _ => 0%Q)).
Proof.
  intros A0 A1. split; [|split].
  - intros i j Li Lj. q. destruct i; [|lia]. destruct j as [|[|j]]; [rewrite A0, A1; ring|rewrite A0, A1; ring|lia].
  - split.
    + intros i j Li Lj. q. destruct i; [|lia]. rewrite A0, A1. ring.
    + intros x H. exists (fun _ => x 1). specialize (H 0 ltac:(lia)). q. rewrite A0, A1 in H. split.
      * intros i Li. q. destruct i as [|[|i]]; [simpl; lra|simpl; lra|lia].
      * intros z' Hz i Li. specialize (Hz 1 ltac:(lia)). q. destruct i; [lra|lia].
  - split; [intros i j Li Lj; q; lia|]. intros x H. exists (fun _ => 0%Q). specialize (H 0 ltac:(lia)). q. rewrite A0 in H. split.
    + intros i Li. q. destruct i; [lra|lia].
    + intros z' _ i Li. lia.
Qed.
Lemma contract_col (A : mat) : (A 0%nat 0%nat == 1)%Q -> (A 1%nat 0%nat == 0)%Q ->
  contract 2 1 1 A (mkCalc (fun _ b => if b =? 0 then 1%Q else 0%Q) (fun _ _ => 0%Q) (fun a _ => if a =? 1 then 1%Q else 0%Q)).
Proof.
  intros A0 A1. split; [|split].
  - intros i j Li Lj. q. destruct j; [|lia]. destruct i as [|[|i]]; [rewrite A0, A1; ring|rewrite A0, A1; ring|lia].
  - split; [intros i j Li Lj; q; lia|]. intros x H. exists (fun _ => 0%Q). specialize (H 0 ltac:(lia)). q. rewrite A0 in H. split.
    + intros i Li. q. destruct i; [lra|lia].
    + intros z' _ i Li. lia.
  - split.
    + intros i j Li Lj. q. destruct i; [|lia]. rewrite A0, A1. ring.
    + intros x H. exists (fun _ => x 1). specialize (H 0 ltac:(lia)). q. rewrite A0, A1 in H. split.
      * intros i Li. q. destruct i as [|[|i]]; [simpl; lra|simpl; lra|lia].
      * intros z' Hz i Li. specialize (Hz 1 ltac:(lia)). q. destruct i; [lra|lia].
Qed.
Lemma contract_one (A N S : mat) : (A 0%nat 0%nat == 1)%Q -> contract 1 1 1 A (mkCalc (fun _ _ => 1%Q) N S).
Proof.
  intros A0. split; [|split].
  - intros i j Li Lj. q. destruct i; [|lia]. destruct j; [|lia]. rewrite A0. ring.
  - split; [intros i j Li Lj; q; lia|]. intros x H. exists (fun _ => 0%Q). specialize (H 0 ltac:(lia)). q. rewrite A0 in H. split.
    + intros i Li. q. destruct i; [lra|lia].
    + intros z' _ i Li. lia.
  - split; [intros i j Li Lj; q; lia|]. intros x H. exists (fun _ => 0%Q). specialize (H 0 ltac:(lia)). q. rewrite A0 in H. split.
    + intros i Li. q. destruct i; [lra|lia].
    + intros z' _ i Li. lia.
Qed.
Lemma contract_two (A N S : mat) : (A 0%nat 0%nat == 1)%Q -> (A 0%nat 1%nat == 0)%Q -> (A 1%nat 0%nat == 0)%Q -> (A 1%nat 1%nat == 1)%Q ->
  contract 2 2 2 A (mkCalc (fun a b => if a =? b then 1%Q else 0%Q) N S).
Proof.
  intros A0 A1 A2 A3. split; [|split].
  - intros i j Li Lj. q. destruct i as [|[|i]]; destruct j as [|[|j]]; try lia; simpl; rewrite ?A0, ?A1, ?A2, ?A3; ring.
  - split; [intros i j Li Lj; q; lia|]. intros x H. exists (fun _ => 0%Q). pose proof (H 0 ltac:(lia)) as H0. pose proof (H 1 ltac:(lia)) as H1. q. rewrite A0, A1 in H0. rewrite A2, A3 in H1. split.
    + intros i Li. q. destruct i as [|[|i]]; [lra|lra|lia].
    + intros z' _ i Li. lia.
  - split; [intros i j Li Lj; q; lia|]. intros x H. exists (fun _ => 0%Q). pose proof (H 0 ltac:(lia)) as H0. pose proof (H 1 ltac:(lia)) as H1. q. rewrite A0, A2 in H0. rewrite A1, A3 in H1. split.
    + intros i Li. q. destruct i as [|[|i]]; [lra|lra|lia].
    + intros z' _ i Li. lia.
Qed.
Example l1_contracts : contracts sz1 (d_jac d1) (d_cal d1) 0 l1.
Proof.
  intros k s E. destruct k as [|[|k]]; simpl in E; [| |destruct k; discriminate]; injection E as <-.
  - apply contract_row; reflexivity.
  - apply contract_col; reflexivity.
Qed.
Definition gets (x : res ust) : ust := match x with Ok s => s | _ => s00 end.
Lemma gets_Ok x : match x with Ok _ => true | _ => false end = true -> x = Ok (gets x).
Proof. destruct x; [reflexivity|discriminate|discriminate]. Qed.
Definition s1 : ust := gets (unitAfter sz1 l1 s00 [d1; d1]).
Example ok1 : unitAfter sz1 l1 s00 [d1; d1] = Ok s1.
Proof. apply gets_Ok. vm_compute. reflexivity. Qed.
Example l1_values : map (fun p => map (fun b => Qred (snd p (fun _ _ => 1%Q) (fun _ _ => 5%Q) b)) (seq 0 (sz1 (fst p))))
    (varSubstitutions sz1 (d_cal d1) (scan sz1 start l1) s1) = [[(-2)%Q; 5%Q]; [(-8)%Q]].
Proof. vm_compute. reflexivity. Qed.
Example l1_remaining : map (fun p => map (fun b => Qred (snd p (fun _ _ => 1%Q) (fun _ _ => 5%Q) b)) (seq 0 (fst p)))
    (remaining sz1 (scan sz1 start l1) s1) = [[]; [8%Q]].
Proof. vm_compute. reflexivity. Qed.

(* After any number of updates, the values satisfying the constraints of the group are exactly those
   obtained from the substitution functions for some z, the remaining constraints holding.
   Missing from the full statement: the groups whose update is not defined (refuted below). *)
Theorem C33_equivalence_partial : forall sz l s0 ds d s val,
  wellFormed l -> contracts sz (d_jac d) (d_cal d) 0 l -> unitAfter sz l s0 (ds ++ [d]) = Ok s ->
  (satisfied sz (d_jac d) (d_e d) 0 l val <->
   exists zv, (forall v f, In (v, f) (varSubstitutions sz (d_cal d) (scan sz start l) s) -> forall b, b < sz v -> (val v b == f val zv b)%Q) /\
              (forall n g, In (n, g) (remaining sz (scan sz start l) s) -> forall a, a < n -> (g val zv a == 0)%Q)).
Proof. exact equivalence. Qed.
Print Assumptions C33_equivalence_partial.

(* Every substituted variable has a function, and neither the functions nor the remaining
   constraints depend on a substituted variable. *)
Theorem C33_eliminated : forall sz l cal s, ordered l ->
  map fst (varSubstitutions sz cal (scan sz start l) s) = flat_map s_xs l /\
  forall val val', (forall v, ~ In v (flat_map s_xs l) -> val v = val' v) ->
    (forall v f, In (v, f) (varSubstitutions sz cal (scan sz start l) s) -> forall zv b, (f val zv b == f val' zv b)%Q) /\
    (forall n g, In (n, g) (remaining sz (scan sz start l) s) -> forall zv a, (g val zv a == g val' zv a)%Q).
Proof. exact eliminated. Qed.
Print Assumptions C33_eliminated.

(* The update is defined when there are not more constraints than variables nor more variables than
   substitutions, as when every substitution has one constraint and one variable. *)
Theorem C33_update_defined_partial : forall sz l s0 ds,
  length (flat_map s_cs l) <= length (flat_map s_xs l) -> length (flat_map s_xs l) <= length l ->
  exists s, unitAfter sz l s0 ds = Ok s.
Proof. exact defined. Qed.
Print Assumptions C33_update_defined_partial.
Example l1_counts : length (flat_map s_cs l1) <= length (flat_map s_xs l1) /\ length (flat_map s_xs l1) <= length l1.
Proof. simpl; lia. Qed.

(* More precisely, the updates are defined when there are not more constraints than variables and no constraint whose right-hand
   side is ZERO uses a variable substituted by another substitution and coming, among the substituted ones, after as many
   variables as there are substitutions. *)
Theorem C33_update_defined : forall sz l s0 ds,
  length (flat_map s_cs l) <= length (flat_map s_xs l) ->
  (forall s c v, In s l -> In c (s_cs s) -> c_rhs c = ZERO -> In v (c_vars c) -> ~ In v (s_xs s) -> ~ In v (skipn (length l) (flat_map s_xs l))) ->
  exists s, unitAfter sz l s0 ds = Ok s.
Proof. exact defined_if. Qed.
Print Assumptions C33_update_defined.
(* two variables substituted together, then one that depends on the second: more variables than substitutions *)
Definition l4 : list sub := [mkSub [mkCst 2 [0; 1; 3] ZERO] [0; 1] 2; mkSub [mkCst 1 [2; 1] AS_GIVEN] [2] 1; mkSub [mkCst 1 [4; 1] ZERO] [4] 1].
Example l4_defined : wellFormed l4 /\ ordered l4 /\ length (flat_map s_cs l4) <= length (flat_map s_xs l4) /\ length l4 < length (flat_map s_xs l4) /\
  (forall s c v, In s l4 -> In c (s_cs s) -> c_rhs c = ZERO -> In v (c_vars c) -> ~ In v (s_xs s) -> ~ In v (skipn (length l4) (flat_map s_xs l4))).
Proof.
  split; [|split; [|split; [|split]]].
  - split; [repeat constructor; simpl; intuition lia|]. intros s c [<-|[<-|[<-|[]]]] [<-|[]]; repeat constructor; simpl; intuition lia.
  - intros a s b c v E Ic Iv. destruct a as [|x [|y [|z a]]]; simpl in E.
    + injection E as <- <-. destruct Ic as [<-|[]]. simpl in *. intuition lia.
    + injection E as <- <- <-. destruct Ic as [<-|[]]. simpl in *. intuition lia.
    + injection E as <- <- <- <-. simpl. tauto.
    + injection E as _ _ _ E. destruct a; discriminate.
  - simpl. lia.
  - simpl. lia.
  - intros s c v [<-|[<-|[<-|[]]]] [<-|[]] R Iv Nv; simpl in *; try discriminate; intuition lia.
Qed.
(* The first condition is necessary: with more constraints than variables, every update is undefined. *)
Theorem C33_more_constraints : forall sz l s0 d ds, length (flat_map s_xs l) < length (flat_map s_cs l) -> unitAfter sz l s0 (d :: ds) = UB.
Proof. exact undefined_if. Qed.
Print Assumptions C33_more_constraints.
(* When no right-hand side is ZERO, it is the exact condition. *)
Theorem C33_update_defined_iff : forall sz l s0 d ds, (forall s c, In s l -> In c (s_cs s) -> c_rhs c <> ZERO) ->
  ((exists s, unitAfter sz l s0 (d :: ds) = Ok s) <-> length (flat_map s_cs l) <= length (flat_map s_xs l)).
Proof.
  intros sz l s0 d ds H. split; [intros [s E]; exact (defined_only_if _ _ _ _ _ _ E)|]. intros L. apply defined_if; [exact L|].
  intros s c v I J R. destruct (H s c I J R).
Qed.
Print Assumptions C33_update_defined_iff.
Example l1_no_zero : (forall s c, In s l1 -> In c (s_cs s) -> c_rhs c <> ZERO) /\
  exists l, (forall s c, In s l -> In c (s_cs s) -> c_rhs c <> ZERO) /\ wellFormed l /\ length (flat_map s_xs l) < length (flat_map s_cs l).
Proof.
  split; [intros s c [<-|[<-|[]]] [<-|[]]; discriminate|]. exists [mkSub [mkCst 1 [0; 1] AS_GIVEN; mkCst 1 [0] OPPOSITE] [0] 2].
  split; [intros s c [<-|[]] [<-|[<-|[]]]; discriminate|]. split; [|simpl; lia].
  split; [repeat constructor; simpl; tauto|]. intros s c [<-|[]] [<-|[<-|[]]]; repeat constructor; simpl; intuition lia.
Qed.

(* Two scalar constraints substituting a variable of size 2: cIsZero_ has one element per variable
   and is accessed with the index of the constraint (SubstitutionUnit.cpp:127-141 and 321). *)
Theorem C33_two_constraints_refuted : exists sz l, wellFormed l /\ ordered l /\ l = [mkSub [mkCst 1 [0] ZERO; mkCst 1 [0] ZERO] [0] 2] /\
  forall s0 d, unitAfter sz l s0 [d] = UB.
Proof.
  exists (fun _ => 2), [mkSub [mkCst 1 [0] ZERO; mkCst 1 [0] ZERO] [0] 2]. split; [|split; [|split]].
  - split; [repeat constructor; simpl; tauto|]. intros s c [<-|[]] [<-|[<-|[]]]; repeat constructor; simpl; tauto.
  - intros a s b c v E Ic Iv. destruct a as [|x a]; simpl in E; [injection E as <- <-; simpl; tauto|]. injection E as _ E. destruct a; discriminate.
  - reflexivity.
  - intros s0 d. reflexivity.
Qed.
Print Assumptions C33_two_constraints_refuted.
(* A dependency on the third variable, with two substitutions: uIsZero_ has one element per
   substitution and is accessed with the index of the variable (SubstitutionUnit.cpp:183). *)
Theorem C33_dependency_refuted : exists sz l, wellFormed l /\ ordered l /\
  l = [mkSub [mkCst 3 [0; 1; 2] AS_GIVEN] [0; 1; 2] 3; mkSub [mkCst 1 [3; 2] ZERO] [3] 1] /\
  forall s0 d, unitAfter sz l s0 [d] = UB.
Proof.
  exists (fun _ => 1), [mkSub [mkCst 3 [0; 1; 2] AS_GIVEN] [0; 1; 2] 3; mkSub [mkCst 1 [3; 2] ZERO] [3] 1]. split; [|split; [|split]].
  - split; [repeat constructor; simpl; intuition lia|]. intros s c [<-|[<-|[]]] [<-|[]]; repeat constructor; simpl; intuition lia.
  - intros a s b c v E Ic Iv. destruct a as [|x [|y a]]; simpl in E.
    + injection E as <- <-. destruct Ic as [<-|[]]. simpl in *. intuition lia.
    + injection E as <- <- <-. simpl. tauto.
    + injection E as _ _ E. destruct a; discriminate.
  - reflexivity.
  - intros s0 d. reflexivity.
Qed.
Print Assumptions C33_dependency_refuted.

(* With one variable per substitution, a function flagged ZERO has no constant part. *)
Theorem C33_zero_flag_partial : forall sz l s0 ds d s, wellFormed l -> (forall x, In x l -> length (s_xs x) = 1) -> unitAfter sz l s0 (ds ++ [d]) = Ok s ->
  forall v f, In (true, (v, f)) (flagged sz (d_cal d) (scan sz start l) s) -> forall b, b < sz v -> (f zeros zeros b == 0)%Q.
Proof. exact zero_flagged. Qed.
Print Assumptions C33_zero_flag_partial.
(* without dependencies and with ZERO right-hand side, the flag is set *)
Definition l2 : list sub := [mkSub [mkCst 1 [0; 2] ZERO] [0] 1; mkSub [mkCst 1 [1; 0] ZERO] [1] 1; mkSub [mkCst 1 [3; 1] AS_GIVEN] [3] 1].
Definition d2 : data := mkD (fun _ _ _ _ _ => 1%Q) (fun _ _ _ => 1%Q) (fun _ => mkCalc (fun _ _ => 1%Q) (fun _ _ => 0%Q) (fun _ _ => 0%Q)).
Example l2_flags : match unitAfter (fun _ => 1) l2 s00 [d2] with Ok s => map fst (flagged (fun _ => 1) (d_cal d2) (scan (fun _ => 1) start l2) s) | _ => [] end = [true; true; false].
Proof. vm_compute. reflexivity. Qed.

(* x0 and x1 substituted together with a non zero right-hand side, x2 alone with a zero one, then x3
   by x3 + x1 = 0: x3 is flagged as having no constant part although it is -1. *)
Definition sz3 (_ : nat) : nat := 1.
Definition l3 : list sub := [mkSub [mkCst 2 [0; 1] AS_GIVEN] [0; 1] 2; mkSub [mkCst 1 [2] ZERO] [2] 1; mkSub [mkCst 1 [3; 1] ZERO] [3] 1].
Definition d3 : data := mkD
  (fun k _ v => match k with 0 => fun a _ => if a =? v then 1%Q else 0%Q | _ => fun _ _ => 1%Q end)
  (fun _ _ _ => 1%Q)
  (fun k => match k with 0 => mkCalc (fun a b => if a =? b then 1%Q else 0%Q) (fun _ _ => 0%Q) (fun _ _ => 0%Q) | _ => mkCalc (fun _ _ => 1%Q) (fun _ _ => 0%Q) (fun _ _ => 0%Q) end).
Lemma nth_flag {T} (l : list (bool * (nat * T))) i d v : i < length l -> (fst (nth i l d), fst (snd (nth i l d))) = (true, v) ->
  In (true, (v, snd (snd (nth i l d)))) l.
Proof. intros L E. pose proof (nth_In l d L) as I. destruct (nth i l d) as [b [w f]]. simpl in E. injection E as -> ->. exact I. Qed.
Theorem C33_zero_flag_refuted : exists sz l s0 d s f, wellFormed l /\ contracts sz (d_jac d) (d_cal d) 0 l /\ unitAfter sz l s0 [d] = Ok s /\
  In (true, (3, f)) (flagged sz (d_cal d) (scan sz start l) s) /\ (f zeros zeros 0%nat == -(1))%Q.
Proof.
  exists sz3, l3, s00, d3, (gets (unitAfter sz3 l3 s00 [d3])), (snd (snd (nth 3 (flagged sz3 (d_cal d3) (scan sz3 start l3) (gets (unitAfter sz3 l3 s00 [d3]))) (false, (0, fun _ _ _ => 0%Q))))).
  split; [|split; [|split; [apply gets_Ok; vm_compute; reflexivity|split; [|vm_compute; reflexivity]]]].
  3:{ apply nth_flag; [vm_compute; lia|vm_compute; reflexivity]. }
  - split; [repeat constructor; simpl; intuition lia|]. intros s c [<-|[<-|[<-|[]]]] [<-|[]]; repeat constructor; simpl; intuition lia.
  - intros k s E. destruct k as [|[|[|k]]]; simpl in E; [| | |destruct k; discriminate]; injection E as <-.
    + apply contract_two; reflexivity.
    + apply contract_one; reflexivity.
    + apply contract_one; reflexivity.
Qed.
Print Assumptions C33_zero_flag_refuted.
