(* C72: the variables given to the solver and the bounds when variables are substituted. *)
From Coq Require Import List Bool Arith Lia.
Import ListNotations.
From Verif Require Import Base MatPropModel BsModel BsSpec BsProofs BsProofs2 BsExamples.
Local Open Scope nat_scope.

(* When each variable of the problem meets one substituted variable at most, and contains it, the schemes succeed, and the
   variables of the solver have exactly the elements that are needed.  Missing: variables with several substituted parts. *)
Theorem C72_processed_partial sizeOf nsup ss cs ex : sane sizeOf nsup ss -> plainMatrices ss ->
  (forall x, asked cs x -> realVar sizeOf nsup x) -> (forall c, In c cs -> c_used c = false -> good ss c) ->
  (forall v, In v (concat ex) -> realVar sizeOf nsup v /\ forall k i, has v k i -> needed ss cs k i) ->
  exists M l, process sizeOf nsup ss cs ex = Ok (M, l) /\ (forall k i, (exists m, In m M /\ has m k i) <-> needed ss cs k i).
Proof. intros SA. exact (process_good sizeOf nsup ss SA cs ex). Qed.
(* A variable with two substituted parts: the variable of the second substitution is not given to the solver, and an exception
   is thrown *)
Theorem C72_processed_refuted : exists sizeOf nsup ss c x, sane sizeOf nsup ss /\ plainMatrices ss /\ realVar sizeOf nsup x /\
  c_vars c = [(1, x)] /\ c_used c = false /\ granular ss x /\ aligned ss c /\ process sizeOf nsup ss [c] [] = Throw.
Proof.
  exists size4, 4, subsA, (task [(1, X 0 8)]), (X 0 8). split; [exact sane_A|]. split; [apply plain_two|]. split; [rv|].
  split; [reflexivity|]. split; [reflexivity|]. split.
  - intros s [<-|[<-|[]]] _ k i [? ?]; split; cbn in *; lia.
  - split; [|vm_compute; reflexivity].
    intros s t id x id' x' y p z q [<-|[<-|[]]] [<-|[<-|[]]] I I' M M' [E|[]] [E'|[]]; injection E as <- <-; injection E' as <- <-;
      try reflexivity; intros Q; exfalso; revert Q; far.
Qed.

(* The variables of the solver, in all cases: only the first substituted variable met counts *)
Theorem C72_variables sizeOf nsup ss cs ex M l : sane sizeOf nsup ss -> (forall x, asked cs x -> realVar sizeOf nsup x) ->
  process sizeOf nsup ss cs ex = Ok (M, l) ->
  map fst l = filter (fun c => negb (c_used c)) cs /\
  forall k i, (exists m, In m M /\ has m k i) <-> collected ss cs k i.
Proof. intros SA. exact (process_columns sizeOf nsup ss SA cs ex M l). Qed.
Theorem C72_coarse sizeOf nsup ss cs ex x s : sane sizeOf nsup ss -> (forall x, asked cs x -> realVar sizeOf nsup x) ->
  asked cs x -> firstMet ss x s -> ~ within (s_var s) x -> process sizeOf nsup ss cs ex = Throw.
Proof. intros SA. exact (process_coarse sizeOf nsup ss SA cs ex x s). Qed.

(* A constraint whose variables contain or avoid the substituted variables is rewritten properly, with columns that exist *)
Theorem C72_rewritten sizeOf nsup ss cs ex M l c a : sane sizeOf nsup ss -> (forall x, asked cs x -> realVar sizeOf nsup x) ->
  process sizeOf nsup ss cs ex = Ok (M, l) -> In (c, AGeneral a) l -> (forall id x, In (id, x) (c_vars c) -> granular ss x) ->
  rewritten ss c a /\
  (forall s y p, In (Through s) a -> In (y, p) (s_vars s) -> inColumns M y) /\ (forall p, In (Direct p) a -> inColumns M p).
Proof. intros SA. exact (process_general sizeOf nsup ss SA cs ex M l c a). Qed.
(* Without that, the exception meant for the case is not always thrown: elements that are replaced are solved for as they are *)
Theorem C72_rewritten_refuted : exists sizeOf nsup ss c M a p, sane sizeOf nsup ss /\ plainMatrices ss /\
  (forall x, asked [c] x -> realVar sizeOf nsup x) /\ process sizeOf nsup ss [c] [] = Ok (M, [(c, AGeneral a)]) /\
  In (Direct p) a /\ 0 < v_d p /\ forall k i, has p k i -> replaced ss k i.
Proof.
  exists size4, 4, subsB, (task [(1, X 0 6)]). eexists. eexists. exists (X 4 2). split; [exact sane_B|]. split; [apply plain_two|].
  split; [intros x Ax; apply asked_one in Ax; destruct Ax as (id & [E|[]]); injection E as <- <-; rv|].
  split; [vm_compute; reflexivity|]. split; [right; right; left; reflexivity|]. split; [cbn; lia|].
  intros k i [? ?]. exists (sub1 11 (X 4 4) Zv). split; [right; left; reflexivity|]. split; cbn in *; lia.
Qed.
(* The order of the variables in a constraint decides on whether it can be assigned *)
Theorem C72_order_refuted : exists sizeOf nsup ss c c', sane sizeOf nsup ss /\ plainMatrices ss /\ c_vars c' = rev (c_vars c) /\
  (forall id x, In (id, x) (c_vars c) -> single ss x /\ granular ss x) /\
  process sizeOf nsup ss [c] [] = Throw /\ is_ok (process sizeOf nsup ss [c'] []) = true.
Proof.
  exists size4, 4, subsC, (task [(1, X 0 2); (2, X 4 2)]), (task [(2, X 4 2); (1, X 0 2)]). split; [exact sane_C|]. split; [apply plain_two|].
  split; [reflexivity|]. split; [|split; vm_compute; reflexivity].
  intros id x [E|[E|[]]]; injection E as <- <-; split.
  - intros s t [<-|[<-|[]]] [<-|[<-|[]]]; try reflexivity; intros A B; exfalso; revert A B; intros (k & i & [? ?] & [? ?]) (k' & i' & [? ?] & [? ?]); cbn in *; lia.
  - intros s [<-|[<-|[]]]; [intros _ k i [? ?]; split; cbn in *; lia|intros Q; exfalso; revert Q; far].
  - intros s t [<-|[<-|[]]] [<-|[<-|[]]]; try reflexivity; intros A B; exfalso; revert A B; intros (k & i & [? ?] & [? ?]) (k' & i' & [? ?] & [? ?]); cbn in *; lia.
  - intros s [<-|[<-|[]]]; [intros Q; exfalso; revert Q; far|intros _ k i [? ?]; split; cbn in *; lia].
Qed.
(* The variables of the additional constraints are not given to the solver *)
Theorem C72_additional_refuted : exists sizeOf nsup ss c s y p, sane sizeOf nsup ss /\ plainMatrices ss /\ good ss c /\ In s ss /\
  In (y, p) (s_vars s) /\ is_ok (process sizeOf nsup ss [c] []) = true /\ process sizeOf nsup ss [c] [[y]] = Throw.
Proof.
  exists size4, 4, subsA, (task [(2, W)]), (sub1 11 (X 4 2) Zv), Zv, default_props. split; [exact sane_A|]. split; [apply plain_two|].
  split.
  - split.
    + intros id x [E|[]]; injection E as <- <-; split.
      * intros s t [<-|[<-|[]]] [<-|[<-|[]]]; try reflexivity; intros Q; exfalso; revert Q; far.
      * intros s [<-|[<-|[]]] Q; exfalso; revert Q; far.
    + intros s t id x id' x' y p z q [<-|[<-|[]]] [<-|[<-|[]]] [E0|[]]; injection E0 as <- <-; intros _ Q; exfalso; revert Q; far.
  - split; [right; left; reflexivity|]. split; [left; reflexivity|]. split; vm_compute; reflexivity.
Qed.

(* What is a bound *)
Theorem C72_bound sizeOf nsup ss c : sane sizeOf nsup ss -> (forall id x, In (id, x) (c_vars c) -> realVar sizeOf nsup x) ->
  (isBoundS ss c = true <->
   exists id x, simple c id x /\
     (((forall s, In s ss -> s_id s <> id) /\ (forall k i, has x k i -> ~ replaced ss k i)) \/
      (exists s y p, In s ss /\ s_id s = id /\ s_vars s = [(y, p)] /\ isDiagonal p = true /\ isInvertible p = true))).
Proof. intros SA. exact (bound_iff sizeOf nsup ss SA c). Qed.
(* The bounds of the schemes are on elements that are not replaced, and that the solver has *)
Theorem C72_scheme_bound sizeOf nsup ss cs ex M l c : sane sizeOf nsup ss -> plainMatrices ss ->
  (forall x, asked cs x -> realVar sizeOf nsup x) -> process sizeOf nsup ss cs ex = Ok (M, l) -> In (c, ABound) l ->
  c_level c = 0 /\ exists id x, simple c id x /\ (forall k i, has x k i -> ~ replaced ss k i) /\ inColumns M x.
Proof. intros SA. exact (process_bound sizeOf nsup ss SA cs ex M l c). Qed.
(* The conventions: a target with two sides takes all bounds, an equality none, a target with one side those with one side and
   definite matrices *)
Theorem C72_targets ss c : canBeUsed ss c DS = Ok (isBoundS ss c) /\ canBeUsed ss c EQ = Ok false /\
  (forall t id x, simple c id x -> (forall s, In s ss -> s_id s <> id) -> isBoundS ss c = true -> oneSided t = true ->
     (canBeUsed ss c t = Ok true <->
      (c_type c = t /\ isPositiveDefinite (c_prop c) = true) \/
      (oneSided (c_type c) = true /\ c_type c <> t /\ isNegativeDefinite (c_prop c) = true))).
Proof. split; [exact (canBeUsed_DS ss c)|]. split; [exact (canBeUsed_EQ ss c)|]. intros t id x. exact (canBeUsed_free ss c t id x). Qed.
(* With a target with one side, a bound on a substituted variable is never accepted nor refused: the matrix is asked for the
   first substituted variable, on which the function does not depend, and an exception is thrown *)
Theorem C72_lookup sizeOf nsup ss c t s x : sane sizeOf nsup ss -> In s ss -> simple c (s_id s) x -> isBoundS ss c = true ->
  oneSided t = true -> oneSided (c_type c) = true -> canBeUsed ss c t = Throw.
Proof. intros SA. exact (canBeUsed_replaced sizeOf nsup ss SA c t s x). Qed.
(* and the product of diagonal matrices is only known definite for plus or minus the identity *)
Theorem C72_product p ps q : isDiagonal p = true -> isDiagonal ps = true -> mp_mul p ps = Ok q ->
  isPositiveDefinite q = (isIdentity p && isIdentity ps) || (isMinusIdentity p && isMinusIdentity ps).
Proof. exact (product_definite p ps q). Qed.

(* Concrete cases *)
Definition csA : list cst := [task [(1, X 0 4); (2, W)]; task [(3, W)]].
Lemma asked_csA x : asked csA x -> realVar size4 4 x.
Proof. intros (c & id & [<-|[<-|[]]] & _ & I); cbn in I; [destruct I as [E|[E|[]]]|destruct I as [E|[]]]; injection E as <- <-; rv. Qed.
(* X[0,4) with its part X[0,2) replaced by Y, and W, with a bound on W *)
Example C72_ex_processed : exists M l, process size4 4 subsA csA [[Y 0 2]] = Ok (M, l) /\
  M = [X 2 2; Y 0 2; W] /\ In (task [(3, W)], ABound) l /\
  In (task [(1, X 0 4); (2, W)], AGeneral [Through (sub1 10 (X 0 2) (Y 0 2)); Direct (X 2 2); Direct W]) l.
Proof. eexists. eexists. split; [vm_compute; reflexivity|]. split; [reflexivity|]. split; [right; left; reflexivity|left; reflexivity]. Qed.
Example C72_ex_hyps : sane size4 4 subsA /\ plainMatrices subsA /\ (forall x, asked csA x -> realVar size4 4 x) /\
  good subsA (task [(1, X 0 4); (2, W)]) /\ needed subsA csA 1 0 /\ ~ needed subsA csA 0 0.
Proof.
  split; [exact sane_A|]. split; [apply plain_two|]. split; [exact asked_csA|]. split; [exact good_A|]. split.
  - exists (X 0 4). split; [exists (task [(1, X 0 4); (2, W)]), 1; split; [left; reflexivity|split; [reflexivity|left; reflexivity]]|]. right.
    exists (sub1 10 (X 0 2) (Y 0 2)), (Y 0 2), default_props. split; [left; reflexivity|].
    split; [exists 0, 0; split; split; cbn; lia|]. split; [left; reflexivity|split; cbn; lia].
  - intros (x & A & [[_ N]|(s & y & p & [<-|[<-|[]]] & _ & [E|[]] & H)]).
    + apply N. exists (sub1 10 (X 0 2) (Y 0 2)). split; [left; reflexivity|split; cbn; lia].
    + injection E as <- <-. destruct H. cbn in *. lia.
    + injection E as <- <-. destruct H. cbn in *. lia.
Qed.
(* X[4,8) is substituted, a task on X[4,6) is too fine *)
Example C72_ex_coarse : process size4 4 subsB [task [(1, X 4 2)]] [] = Throw /\ firstMet subsB (X 4 2) (sub1 11 (X 4 4) Zv) /\
  ~ within (X 4 4) (X 4 2).
Proof.
  split; [vm_compute; reflexivity|]. split.
  - exists [sub1 10 (X 0 2) (Y 0 2)], []. split; [reflexivity|]. split; [exists 0, 4; split; split; cbn; lia|].
    intros t [<-|[]]; far.
  - intros H. destruct (H 0 7) as [_ Q]; [split; cbn; lia|]. cbn in Q. lia.
Qed.
(* bounds: on W, not on X[0,4) which is replaced in part; with a diagonal matrix, the look up of X[0,2) for X[4,6) *)
Definition subsD : list sub := [sub1 10 (X 0 2) (Y 0 2); mkSub 11 (X 4 2) [(Zv, diagP)]].
Example C72_ex_bounds : isBoundS subsD (task [(3, W)]) = true /\ isBoundS subsD (task [(1, X 0 4)]) = false /\
  isBoundS subsD (task [(11, X 4 2)]) = true /\ isBoundS subsD (task [(12, X 4 2)]) = false /\
  canBeUsed subsD (task [(11, X 4 2)]) DS = Ok true /\ canBeUsed subsD (task [(11, X 4 2)]) GE = Throw /\
  canBeUsed subsD (task [(3, W)]) GE = Ok true /\ canBeUsed subsD (task [(3, W)]) LE = Ok false /\
  process size4 4 subsD [task [(11, X 4 2)]] [] = Throw.
Proof. vm_compute. repeat split. Qed.
Lemma sane_D : sane size4 4 subsD.
Proof.
  destruct (sane_two (X 0 2) (Y 0 2) (X 4 2) Zv) as (A & B & C & D); [rv|rv|rv|rv|far|intros v w [<-|[<-|[]]] [<-|[<-|[]]]; far|].
  split; [|split; [|split]].
  - intros s [<-|[<-|[]]]; cbn; (split; [rv|]); intros v p [E|[]]; injection E as <- <-; rv.
  - intros s t [<-|[<-|[]]] [<-|[<-|[]]]; cbn; try reflexivity; intros Q; exfalso; revert Q; far.
  - intros s t [<-|[<-|[]]] [<-|[<-|[]]]; cbn; intros E; try reflexivity; discriminate.
  - intros s v p k i [<-|[<-|[]]]; cbn; (intros [E|[]]; injection E as <- <-; intros H (t & [<-|[<-|[]]] & T); destruct H, T; cbn in *; lia).
Qed.
Example C72_ex_lookup : In (mkSub 11 (X 4 2) [(Zv, diagP)]) subsD /\ simple (task [(11, X 4 2)]) 11 (X 4 2) /\
  mp_mul diagP diagP = Ok (mkP false true DIAGONAL true NZI).
Proof. split; [right; left; reflexivity|]. split; [repeat split|vm_compute; reflexivity]. Qed.

Print Assumptions C72_processed_partial.
Print Assumptions C72_processed_refuted.
Print Assumptions C72_variables.
Print Assumptions C72_coarse.
Print Assumptions C72_rewritten.
Print Assumptions C72_rewritten_refuted.
Print Assumptions C72_order_refuted.
Print Assumptions C72_additional_refuted.
Print Assumptions C72_bound.
Print Assumptions C72_scheme_bound.
Print Assumptions C72_targets.
Print Assumptions C72_lookup.
Print Assumptions C72_product.
