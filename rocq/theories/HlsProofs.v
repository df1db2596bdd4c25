(* Proofs about HlsModel. *)
From Coq Require Import List Bool Arith Lia.
Import ListNotations.
From Verif Require Import Base HlsModel HlsSpec.

Lemma sum_app : forall a b, sum (a ++ b) = sum a + sum b.
Proof. induction a as [|x a IH]; intros b; [reflexivity|]. cbn [sum fold_right app]. fold (sum (a ++ b)). fold (sum a). rewrite IH. lia. Qed.
Lemma taken_app : forall a b l, taken (a ++ b) l = taken a l + taken b l.
Proof. intros a b l. unfold taken. now rewrite filter_app, map_app, sum_app. Qed.
Lemma wanted_app : forall a b l e, wanted (a ++ b) l e = wanted a l e + wanted b l e.
Proof. intros a b l e. unfold wanted. now rewrite filter_app, map_app, sum_app. Qed.
Lemma wanted_one : forall c l e, wanted [c] l e = if (clvl c =? l) && Bool.eqb (ceq c) e then csize c else 0.
Proof. intros c l e. unfold wanted. cbn [filter]. destruct (_ && _); cbn; lia. Qed.
Lemma taken_one : forall c l, taken [c] l = if clvl c =? l then csize c else 0.
Proof. intros c l. unfold taken. cbn [filter]. destruct (_ =? _); cbn; lia. Qed.
Lemma taken_wanted : forall cs l, taken cs l = wanted cs l true + wanted cs l false.
Proof.
  induction cs as [|c cs IH]; intros l; [reflexivity|]. change (c :: cs) with ([c] ++ cs).
  rewrite taken_app, !wanted_app, IH, taken_one, !wanted_one. destruct (clvl c =? l), (ceq c); cbn [andb Bool.eqb]; lia.
Qed.
Lemma wanted_0 : forall cs l e, (forall c, In c cs -> clvl c <> l) -> wanted cs l e = 0.
Proof.
  induction cs as [|c cs IH]; intros l e H; [reflexivity|]. change (c :: cs) with ([c] ++ cs). rewrite wanted_app, wanted_one, IH.
  - destruct (Nat.eqb_spec (clvl c) l) as [E|E]; [|reflexivity]. destruct (H c); [now left|exact E].
  - intros c' I. apply H. now right.
Qed.

Lemma upd_len : forall l i f, length (upd l i f) = length l.
Proof.
  intros l i f. unfold upd. rewrite app_length.
  assert (E : length l = length (firstn i l) + length (skipn i l)) by (rewrite <- app_length; now rewrite firstn_skipn).
  rewrite E. now destruct (skipn i l).
Qed.
Lemma upd_nth : forall l i f j, nth j (upd l i f) 0 = if (j =? i) && (i <? length l) then f (nth j l 0) else nth j l 0.
Proof.
  induction l as [|x l IH]; intros i f j.
  - unfold upd. rewrite firstn_nil, skipn_nil. cbn [app length]. rewrite (proj2 (Nat.ltb_ge i 0)) by lia. now rewrite andb_false_r.
  - destruct i as [|i], j as [|j]; cbn [upd firstn skipn app nth]; try reflexivity.
    specialize (IH i f j). unfold upd in IH. rewrite IH. cbn [Nat.eqb length]. reflexivity.
Qed.
Lemma vresize_len : forall l k, length (vresize l k) = k.
Proof. intros l k. unfold vresize. rewrite app_length, firstn_length, repeat_length. lia. Qed.
Lemma nth_rep0 : forall k j, nth j (repeat 0 k) 0 = 0.
Proof. induction k as [|k IH]; intros [|j]; cbn; auto. Qed.
Lemma vresize_nth : forall l k j, nth j (vresize l k) 0 = if j <? k then nth j l 0 else 0.
Proof.
  intros l k j. unfold vresize. destruct (Nat.ltb_spec j k) as [H|H].
  - destruct (Nat.lt_ge_cases j (length l)) as [H'|H'].
    + rewrite app_nth1 by (rewrite firstn_length; lia). clear H'. revert k j H. induction l as [|x l IH]; intros [|k] [|j] H; cbn; try lia; auto.
      apply IH. lia.
    + rewrite app_nth2 by (rewrite firstn_length; lia). rewrite nth_rep0. now rewrite nth_overflow.
  - apply nth_overflow. rewrite app_length, firstn_length, repeat_length. lia.
Qed.
Lemma listEqb_eq : forall a b, listEqb a b = true <-> a = b.
Proof.
  induction a as [|x a IH]; intros [|y b]; cbn; split; try discriminate; auto.
  - intros H. apply andb_true_iff in H as [A B]. apply Nat.eqb_eq in A. apply IH in B. congruence.
  - intros H. injection H as -> ->. rewrite Nat.eqb_refl. now apply IH.
Qed.
Lemma nth_ext0 : forall a b : list nat, length a = length b -> (forall i, i < length a -> nth i a 0 = nth i b 0) -> a = b.
Proof. intros a b H K. now apply (nth_ext a b 0 0). Qed.

(* Adding constraints *)
Definition wf (s : solver) : Prop := building s = true /\ length (nEq s) = length (nIneq s) /\ length (eqSize s) = length (nEq s) /\ length (ineqSize s) = length (nEq s).
Definition prior (s : solver) (l : nat) : nat := nth l (eqSize s) 0 + nth l (ineqSize s) 0.
(* the part of the state adding constraints does not touch *)
Definition rest (s : solver) := (nVar s, nEq s, nIneq s, useBounds s, boundRanges s, (boundData s, data s, xlu s, identityAt s, conf s, next s)).

Lemma run_app : forall ffl a b s, run ffl s (a ++ b) = bind (run ffl s a) (fun s' => run ffl s' b).
Proof. induction a as [|c a IH]; intros b s; [reflexivity|]. cbn [run app]. destruct (step ffl s c); cbn [bind]; auto. Qed.

Lemma add_ok : forall s c s', addConstraint s c = Ok s' -> wf s -> wf s' /\ rest s' = rest s /\ clvl c < length (nEq s) /\
  assignments s' = assignments s ++ [mkA (clvl c) (prior s (clvl c)) (csize c)] /\
  prior s (clvl c) + csize c <= nth (clvl c) (nEq s) 0 + nth (clvl c) (nIneq s) 0 /\
  (forall l, nth l (eqSize s') 0 = nth l (eqSize s) 0 + wanted [c] l true) /\
  (forall l, nth l (ineqSize s') 0 = nth l (ineqSize s) 0 + wanted [c] l false).
Proof.
  intros s c s' H (W1 & W2 & W3 & W4). unfold addConstraint in H. rewrite W1 in H. cbn [negb] in H.
  destruct (Nat.leb_spec (length (nEq s)) (clvl c)) as [L|L]; [discriminate|]. fold (prior s (clvl c)) in H.
  destruct (Nat.ltb_spec (nth (clvl c) (nEq s) 0 + nth (clvl c) (nIneq s) 0) (prior s (clvl c) + csize c)) as [L'|L']; [discriminate|].
  injection H as <-. unfold wf, rest. cbn [building nEq nIneq eqSize ineqSize nVar useBounds boundRanges boundData data xlu identityAt conf next assignments].
  split; [repeat split; auto; destruct (ceq c); now rewrite ?upd_len|].
  split; [reflexivity|]. split; [exact L|]. split; [reflexivity|]. split; [exact L'|].
  split; intros l; rewrite wanted_one; destruct (ceq c); cbn [Bool.eqb andb]; rewrite ?andb_false_r, ?andb_true_r; try lia;
    rewrite upd_nth; rewrite ?W3, ?W4, (proj2 (Nat.ltb_lt _ _) L), andb_true_r, (Nat.eqb_sym l); destruct (Nat.eqb_spec (clvl c) l); subst; lia.
Qed.
Lemma add_progress : forall s c, wf s -> clvl c < length (nEq s) -> prior s (clvl c) + csize c <= nth (clvl c) (nEq s) 0 + nth (clvl c) (nIneq s) 0 ->
  exists s', addConstraint s c = Ok s'.
Proof.
  intros s c (W1 & W2 & W3 & W4) L L'. unfold addConstraint. rewrite W1. cbn [negb]. fold (prior s (clvl c)).
  rewrite (proj2 (Nat.leb_gt _ _) L), (proj2 (Nat.ltb_ge _ _) L'). eauto.
Qed.

Lemma adds_ok : forall ffl cs s s', run ffl s (map AddConstraint cs) = Ok s' -> wf s -> wf s' /\ rest s' = rest s /\
  (forall c, In c cs -> clvl c < length (nEq s)) /\
  (exists as_, assignments s' = assignments s ++ as_ /\ length as_ = length cs /\
    forall k c, nth_error cs k = Some c -> nth_error as_ k = Some (mkA (clvl c) (prior s (clvl c) + taken (firstn k cs) (clvl c)) (csize c))) /\
  (forall l, nth l (eqSize s') 0 = nth l (eqSize s) 0 + wanted cs l true) /\
  (forall l, nth l (ineqSize s') 0 = nth l (ineqSize s) 0 + wanted cs l false).
Proof.
  induction cs as [|c cs IH]; intros s s' R W.
  - injection R as <-. split; [exact W|]. split; [reflexivity|]. split; [intros c []|]. split.
    + exists []. rewrite app_nil_r. split; [reflexivity|]. split; [reflexivity|]. intros [|k] c E; discriminate.
    + split; intros l; unfold wanted; cbn; lia.
  - cbn [map run step] in R. destruct (addConstraint s c) as [s1| |] eqn:E; cbn [bind] in R; try discriminate.
    destruct (add_ok _ _ _ E W) as (W1 & R1 & L1 & A1 & _ & Q1 & I1). destruct (IH _ _ R W1) as (W2 & R2 & L2 & (as_ & A2 & N2 & K2) & Q2 & I2).
    split; [exact W2|]. split; [congruence|]. split.
    + intros c' [<-|I]; [exact L1|]. assert (nEq s1 = nEq s) by (unfold rest in R1; congruence). rewrite <- H. now apply L2.
    + split.
      * exists (mkA (clvl c) (prior s (clvl c)) (csize c) :: as_). rewrite A2, A1, <- app_assoc. split; [reflexivity|]. split; [cbn; lia|].
        intros [|k] c' Hk; cbn [nth_error firstn] in *.
        -- injection Hk as <-. unfold taken. cbn. now rewrite Nat.add_0_r.
        -- rewrite (K2 _ _ Hk). do 2 f_equal. unfold prior. rewrite Q1, I1.
           change (c :: firstn k cs) with ([c] ++ firstn k cs). rewrite taken_app, (taken_wanted [c]). lia.
      * change (c :: cs) with ([c] ++ cs). split; intros l; rewrite wanted_app.
        -- rewrite Q2, Q1. lia.
        -- rewrite I2, I1. lia.
Qed.
Lemma adds_progress : forall ffl cs s, wf s -> (forall c, In c cs -> clvl c < length (nEq s)) ->
  (forall l, prior s l + taken cs l <= nth l (nEq s) 0 + nth l (nIneq s) 0) -> exists s', run ffl s (map AddConstraint cs) = Ok s'.
Proof.
  induction cs as [|c cs IH]; intros s W L T; [exists s; reflexivity|]. cbn [map run step].
  destruct (add_progress s c W) as (s1 & E).
  - apply L. now left.
  - specialize (T (clvl c)). change (c :: cs) with ([c] ++ cs) in T. rewrite taken_app, taken_one, Nat.eqb_refl in T. lia.
  - rewrite E. cbn [bind]. destruct (add_ok _ _ _ E W) as (W1 & R1 & _ & _ & _ & Q1 & I1).
    assert (N : nEq s1 = nEq s /\ nIneq s1 = nIneq s) by (unfold rest in R1; split; congruence). destruct N as [N1 N2].
    apply IH; [exact W1| |].
    + intros c' I. rewrite N1. apply L. now right.
    + intros l. rewrite N1, N2. specialize (T l). change (c :: cs) with ([c] ++ cs) in T. rewrite taken_app, (taken_wanted [c]) in T. unfold prior in *. rewrite Q1, I1. lia.
Qed.

(* startBuild *)
Lemma resize_keep : forall ffl s n ne ni ub, eqSize (resize_ ffl s n ne ni ub) = eqSize s /\ ineqSize (resize_ ffl s n ne ni ub) = ineqSize s.
Proof. intros. unfold resize_. destruct (resizeLevels _ _ _ _ _ _ _) as ((d & imp) & nx). split; reflexivity. Qed.
Lemma start_ok : forall ffl s n ne ni ub, length ne = length ni -> exists s', startBuild ffl s n ne ni ub = Ok s' /\ wf s' /\
  nVar s' = n /\ nEq s' = ne /\ nIneq s' = ni /\ useBounds s' = ub /\ assignments s' = [] /\ boundRanges s' = [] /\ identityAt s' = None /\
  (let s1 := resize_ ffl s n ne ni ub in boundData s' = boundData s1 /\ data s' = data s1 /\ xlu s' = xlu s1 /\ conf s' = conf s1) /\
  (forall l, nth l (eqSize s') 0 = if l <? length ne then nth l (eqSize s) 0 else 0) /\
  (forall l, nth l (ineqSize s') 0 = if l <? length ne then nth l (ineqSize s) 0 else 0).
Proof.
  intros ffl s n ne ni ub H. unfold startBuild. rewrite H, Nat.eqb_refl. cbn [negb]. destruct (resize_keep ffl s n ne ni ub) as [E1 E2]. rewrite E1, E2.
  eexists. split; [reflexivity|]. unfold wf. cbn [building nEq nIneq eqSize ineqSize nVar useBounds boundRanges boundData data xlu identityAt conf next assignments].
  rewrite !vresize_len, <- H. cbv zeta. repeat match goal with |- _ /\ _ => split end; auto; intros l; now rewrite vresize_nth.
Qed.
Lemma start_uniq : forall ffl s n ne ni ub s', startBuild ffl s n ne ni ub = Ok s' -> length ne = length ni.
Proof. intros ffl s n ne ni ub s' H. unfold startBuild in H. destruct (Nat.eqb_spec (length ne) (length ni)); [assumption|discriminate]. Qed.

(* bounds *)
Lemma bounds_run : forall ffl bs s, building s = true -> (bs <> [] -> validBounds s = true) -> (forall b, In b bs -> fst b + snd b <= rsize (xlu s)) ->
  exists s', run ffl s (map (fun b => AddBound (fst b) (snd b)) bs) = Ok s' /\ building s' = true /\
  boundRanges s' = boundRanges s ++ bs /\
  (nVar s', nEq s', nIneq s', eqSize s', ineqSize s', useBounds s', assignments s', (boundData s', data s', xlu s', identityAt s', conf s', next s'))
  = (nVar s, nEq s, nIneq s, eqSize s, ineqSize s, useBounds s, assignments s, (boundData s, data s, xlu s, identityAt s, conf s, next s)).
Proof.
  induction bs as [|b bs IH]; intros s B V F.
  - exists s. rewrite app_nil_r. auto.
  - cbn [map run step]. unfold addBound at 1. rewrite B. cbn [negb]. rewrite V by discriminate. cbn [negb orb].
    rewrite (proj2 (Nat.ltb_ge _ _)) by (apply F; now left). cbn [bind].
    match goal with |- context [run _ ?x _] => set (s1 := x) end.
    destruct (IH s1) as (s' & R & B' & Rg & E).
    + reflexivity.
    + intros _. apply V. discriminate.
    + intros b' I. apply F. now right.
    + exists s'. split; [exact R|]. split; [exact B'|]. split; [|exact E]. rewrite Rg. cbn [s1 boundRanges]. rewrite <- app_assoc. cbn. now destruct b.
Qed.
Lemma bounds_frame : forall ffl bs s s', run ffl s (map (fun b => AddBound (fst b) (snd b)) bs) = Ok s' ->
  nEq s' = nEq s /\ nIneq s' = nIneq s /\ eqSize s' = eqSize s /\ ineqSize s' = ineqSize s /\ assignments s' = assignments s.
Proof.
  induction bs as [|b bs IH]; intros s s' R; [injection R as <-; auto|]. cbn [map run step] in R. unfold addBound in R.
  destruct (negb (building s)); [discriminate|]. destruct (_ || _); [discriminate|]. cbn [bind] in R. apply IH in R. exact R.
Qed.
