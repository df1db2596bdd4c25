From Coq Require Import List Bool Arith QArith Lia.
Import ListNotations.
From Verif Require Import Base QueueModel QueueSpec PbModel PbSpec PbProofs PbProofs2 HpModel HpSpec HpProofs.
Local Open Scope nat_scope.

Lemma solve_some p sn r : solve_ p sn = Some r -> r = sn.
Proof. unfold solve_. destruct (_ <? _); congruence. Qed.
Lemma current_ok b ops s i s' sn : quiet b hempty ops -> hrun b hempty ops = Ok s -> hstep b s (USolve i) = HDone s' (Some sn) -> isCurrent s sn.
Proof.
  intros Q1 R E. destruct (quiet_run b ops hempty hinv_empty Q1) as (s0 & R0 & V). assert (s0 = s) by congruence. subst s0.
  assert (B : forall r, r = buildOf (setFin (h_pb s) true) (h_w s) -> isCurrent s r) by (intros r ->; apply build_current; reflexivity).
  cbn [hstep] in E. unfold solve in E. cbn [queues setFin] in E. destruct (nth_error (queues (h_pb s)) i) as [q|] eqn:Nq; [|injection E as _ E; apply B; exact (solve_some _ _ _ E)].
  destruct (nth_error (h_built s) i) as [sn0|] eqn:Ns; [|destruct q; injection E as _ E; apply B; exact (solve_some _ _ _ E)].
  destruct q as [|e q].
  - injection E as _ E. rewrite (solve_some _ _ _ E). apply good_current. apply (hi_good _ V i _ _ Nq Ns).
  - destruct (rebuilds (e :: q)); [|discriminate]. injection E as _ E. apply B. exact (solve_some _ _ _ E).
Qed.
(* a solve that returns leaves no event for its scheme *)
Lemma solved_queue b s i s' r : length (h_built s) = length (queues (h_pb s)) -> i <= length (queues (h_pb s)) -> hstep b s (USolve i) = HDone s' r ->
  nth_error (queues (h_pb s')) i = Some [] /\ (exists sn, nth_error (h_built s') i = Some sn) /\ sameProblem s s'.
Proof.
  intros L Li E. cbn [hstep] in E. unfold solve in E. cbn [queues setFin] in E. destruct (nth_error (queues (h_pb s)) i) as [q|] eqn:Nq.
  - assert (Lt : i < length (queues (h_pb s))) by (apply nth_error_Some; congruence). destruct (nth_in (h_built s) i ltac:(lia)) as [sn Ns]. rewrite Ns in E. destruct q as [|e q].
    + injection E as <- <-. cbn. split; [exact Nq|]. split; [eauto|]. repeat split; reflexivity.
    + destruct (rebuilds (e :: q)); [|discriminate]. injection E as <- <-. cbn. rewrite !setAt_nth by lia. rewrite Nat.eqb_refl. split; [reflexivity|]. split; [eauto|]. repeat split; reflexivity.
  - assert (Lt : i = length (queues (h_pb s))) by (apply nth_error_None in Nq; lia). injection E as <- <-. cbn [h_pb h_built queues setQueues]. split; [rewrite nth_error_app2 by lia; rewrite Lt, Nat.sub_diag; reflexivity|]. split; [|repeat split; reflexivity]. eexists. rewrite nth_error_app2 by lia. rewrite Lt, L, Nat.sub_diag. reflexivity.
Qed.
Lemma pending_throws b s i e q sn : nth_error (queues (h_pb s)) i = Some (e :: q) -> nth_error (h_built s) i = Some sn -> rebuilds (e :: q) = false ->
  hstep b s (USolve i) = HThrew (mkHp (setQueues (setFin (h_pb s) true) (setAt (queues (h_pb s)) i (leftover (cons (h_pb s)) (e :: q)))) (h_w s) (h_built s)).
Proof. intros Nq Ns R. cbn [hstep]. unfold solve. cbn [queues setFin cons]. rewrite Nq, Ns, R. reflexivity. Qed.
Lemma unsupported_ok b ops s i s1 r o s2 r2 : quiet b hempty ops -> hrun b hempty ops = Ok s -> i <= length (h_built s) -> hstep b s (USolve i) = HDone s1 r ->
  changes s1 o -> hstep b s1 o = HDone s2 r2 -> exists s3, hstep b s2 (USolve i) = HThrew s3.
Proof.
  intros Q1 R Li E Ch Eo. destruct (quiet_run b ops hempty hinv_empty Q1) as (s0 & R0 & V). assert (s0 = s) by congruence. subst s0.
  pose proof (hi_len _ V) as L. destruct (solved_queue b s i s1 r L ltac:(lia) E) as (Nq & (sn & Ns) & _). pose proof (quiet_step b s (USolve i) s1 r V I E) as V1. pose proof (hi_inv _ V1) as Vi. pose proof (iv_c _ Vi) as C.
  assert (Fin : forall e, (exists q', addEvent [] e = Ok q') -> isSub e = false -> h_built s2 = h_built s1 -> Forall2 (fun q q' => addEvent q e = Ok q') (queues (h_pb s1)) (queues (h_pb s2)) -> exists s3, hstep b s2 (USolve i) = HThrew s3).
  { intros e (q' & Eq) Se B F. destruct (Forall2_nth _ _ _ _ _ F i [] Nq) as (q2 & N2 & E2). assert (q2 = q') by congruence. subst q2.
    assert (q' = [e]) by (unfold addEvent in E2; destruct (isRemoval (e_type e)); cbn in E2; injection E2 as <-; reflexivity). subst q'.
    eexists. apply (pending_throws b s2 i e [] sn N2); [rewrite B; exact Ns|]. unfold rebuilds. cbn. rewrite orb_false_r. unfold isSub in Se. exact Se. }
  destruct o as [t w|t|n u|rf|t x|t x|j]; try contradiction; cbn [hstep step] in Eo.
  - destruct (add b t (h_pb s1)) as [p'|p'|] eqn:Es; try discriminate. injection Eo as <- <-. destruct (add_inv b t (h_pb s1) _ Es) as (_ & p1 & E1 & Ep). pose proof (baseAdd_inv t (h_pb s1) _ E1) as B. cbv beta iota in B. destruct B as (_ & _ & _ & _ & _ & _ & _ & B8).
    apply (Fin (mkE TaskAddition (addrTask t))); [eexists; reflexivity|reflexivity|reflexivity|]. cbn [h_pb]. rewrite Ep. exact B8.
  - destruct (remove t (h_pb s1)) as [p'|p'|] eqn:Es; try discriminate. injection Eo as <- <-. destruct Ch as [It Nu]. destruct (remove_inv t (h_pb s1) _ Es) as (p1 & E1 & Rm). pose proof (baseRemove_inv t (h_pb s1) _ E1) as B. cbv beta iota in B. destruct B as (_ & _ & _ & _ & _ & [(_ & _ & _ & F)|[N _]]); [|contradiction].
    destruct Rm as [[Lk _]|(c & Lk & p2 & _ & _ & _ & _ & _ & Sx & Ep)]; [apply (co_cons _ C) in It as [c It]; congruence|].
    destruct Sx as [[_ E2]|(k & u & Sf & _ & _)].
    + subst p2. apply (Fin (mkE TaskRemoval (addrTask t))); [eexists; reflexivity|reflexivity|reflexivity|]. cbn [h_pb]. rewrite Ep. exact F.
    + exfalso. pose proof (substFor_spec c (subs (h_pb s1)) 0) as K. rewrite Sf in K. destruct K as (_ & K1 & K2 & _). apply (Nu c u Lk); [|exact K2]. eapply nth_error_In; eauto.
  - destruct (weight WeightChange t (h_pb s1)) as [p'|p'|] eqn:Es; try discriminate. injection Eo as <- <-. pose proof (weight_inv WeightChange t (h_pb s1) _ (or_introl eq_refl) Es) as B. cbv beta iota in B. apply (co_tokens _ C) in Ch. apply existsb_eqb in Ch. rewrite Ch in B.
    apply (Fin (mkE WeightChange (addrTask t))); [eexists; reflexivity|reflexivity|reflexivity|]. cbn [h_pb]. rewrite B. apply map_forall2. reflexivity.
  - destruct (weight AnisotropicWeightChange t (h_pb s1)) as [p'|p'|] eqn:Es; try discriminate. injection Eo as <- <-. pose proof (weight_inv AnisotropicWeightChange t (h_pb s1) _ (or_intror eq_refl) Es) as B. cbv beta iota in B. apply (co_tokens _ C) in Ch. apply existsb_eqb in Ch. rewrite Ch in B.
    apply (Fin (mkE AnisotropicWeightChange (addrTask t))); [eexists; reflexivity|reflexivity|reflexivity|]. cbn [h_pb]. rewrite B. apply map_forall2. reflexivity.
Qed.

(* ---- after an exception ---- *)
Lemma leftover_short m : forall q, length (leftover m q) <= pred (length q) /\ (rebuilds q = false -> rebuilds (leftover m q) = false).
Proof.
  induction q as [|e q [IH1 IH2]]; [cbn; auto|]. cbn [leftover length pred]. assert (T : rebuilds (e :: q) = false -> rebuilds q = false) by (unfold rebuilds; cbn [existsb]; intros H; apply orb_false_iff in H as [_ H]; exact H).
  destruct (e_type e); try (split; [lia|exact T]); (destruct (existsb _ m); [split; [lia|auto]|split; [lia|exact T]]).
Qed.
Lemma same_trans s1 s2 s3 : sameProblem s1 s2 -> sameProblem s2 s3 -> sameProblem s1 s3.
Proof. intros (A1 & A2 & A3 & A4) (B1 & B2 & B3 & B4). repeat split; congruence. Qed.
Lemma retry_aux b i sn : forall n s q, length q <= n -> nth_error (queues (h_pb s)) i = Some q -> nth_error (h_built s) i = Some sn -> rebuilds q = false ->
  exists k s1, k <= length q /\ throwing b i k s s1 /\ sameProblem s s1 /\ hstep b s1 (USolve i) = HDone (mkHp (setFin (h_pb s1) true) (h_w s1) (h_built s1)) (solve_ (h_pb s) sn).
Proof.
  induction n as [|n IH]; intros s q L Nq Ns R.
  - destruct q; [|cbn in L; lia]. exists 0, s. split; [lia|]. split; [reflexivity|]. split; [repeat split; reflexivity|]. cbn [hstep]. unfold solve. cbn [queues setFin]. rewrite Nq, Ns. reflexivity.
  - destruct q as [|e q]; [apply (IH s []); [cbn; lia|auto|auto|auto]|]. pose proof (pending_throws b s i e q sn Nq Ns R) as T. set (q1 := leftover (cons (h_pb s)) (e :: q)) in *. destruct (leftover_short (cons (h_pb s)) (e :: q)) as [L1 R1]. fold q1 in L1, R1.
    assert (Li : i < length (queues (h_pb s))) by (apply nth_error_Some; congruence).
    match type of T with _ = HThrew ?x => set (s' := x) in * end.
    destruct (IH s' q1 ltac:(cbn [length pred] in L, L1; lia) ltac:(unfold s'; cbn [h_pb queues setQueues]; rewrite setAt_nth, Nat.eqb_refl by exact Li; reflexivity) Ns (R1 R)) as (k & s1 & Lk & Th & Sp & E).
    exists (S k), s1. split; [cbn [length pred] in L1 |- *; lia|]. split; [cbn [throwing]; eexists; split; [exact T|exact Th]|]. split; [exact Sp|exact E].
Qed.
Lemma retry_ok b s i s1 : hstep b s (USolve i) = HThrew s1 -> exists sn k s2 s3, nth_error (h_built s) i = Some sn /\ throwing b i k s1 s2 /\ sameProblem s s2 /\ hstep b s2 (USolve i) = HDone s3 (solve_ (h_pb s) sn).
Proof.
  intros E. pose proof E as E0. cbn [hstep] in E. unfold solve in E. cbn [queues setFin] in E. destruct (nth_error (queues (h_pb s)) i) as [q|] eqn:Nq; [|discriminate]. destruct (nth_error (h_built s) i) as [sn|] eqn:Ns; [|destruct q; discriminate].
  destruct q as [|e q]; [discriminate|]. destruct (rebuilds (e :: q)) eqn:R; [discriminate|].
  assert (Li : i < length (queues (h_pb s))) by (apply nth_error_Some; congruence). injection E as <-.
  destruct (leftover_short (cons (h_pb s)) (e :: q)) as [_ R1].
  destruct (retry_aux b i sn (length (leftover (cons (h_pb s)) (e :: q))) (mkHp (setQueues (setFin (h_pb s) true) (setAt (queues (h_pb s)) i (leftover (cons (h_pb s)) (e :: q)))) (h_w s) (h_built s)) (leftover (cons (h_pb s)) (e :: q)) (le_n _) ltac:(cbn [h_pb queues setQueues]; rewrite setAt_nth, Nat.eqb_refl by exact Li; reflexivity) Ns (R1 R)) as (k & s2 & _ & Th & Sp & E2).
  exists sn, k, s2. eexists. split; [reflexivity|]. split; [exact Th|]. split; [exact Sp|exact E2].
Qed.
(* with a substitution everything is built again *)
Lemma recovered_ok b s i n u s1 r s2 sn : hstep b s (UAddSub n u) = HDone s1 r -> hstep b s1 (USolve i) = HDone s2 (Some sn) -> isCurrent s1 sn.
Proof.
  intros E1 E2. cbn [hstep step] in E1. destruct (addSub_inv n u (h_pb s)) as (p1 & Ea & _ & _ & _ & _ & _ & _ & _ & Bq). rewrite Ea in E1. injection E1 as <- <-.
  assert (B : forall x, x = buildOf (setFin p1 true) (h_w s) -> isCurrent (mkHp p1 (h_w s) (h_built s)) x) by (intros x ->; apply build_current; reflexivity).
  cbn [hstep] in E2. unfold solve in E2. cbn [queues setFin h_pb h_built h_w] in E2. rewrite Bq in E2. rewrite nth_error_map in E2. destruct (nth_error (queues (h_pb s)) i) as [q|] eqn:Nq; cbn [option_map] in E2; [|injection E2 as _ E2; apply B; exact (solve_some _ _ _ E2)].
  assert (Rb : rebuilds (q ++ [mkE SubstitutionAddition (addrUser n)]) = true) by (unfold rebuilds; rewrite existsb_app; cbn; apply orb_true_r). rewrite Rb in E2.
  destruct (nth_error (h_built s) i); destruct (q ++ [mkE SubstitutionAddition (addrUser n)]) eqn:Eq; try (destruct q; discriminate Eq); injection E2 as _ E2; apply B; exact (solve_some _ _ _ E2).
Qed.
Lemma recovered_returns b s i n u s1 r : hstep b s (UAddSub n u) = HDone s1 r -> exists s2 r2, hstep b s1 (USolve i) = HDone s2 r2.
Proof.
  intros E1. cbn [hstep step] in E1. destruct (addSub_inv n u (h_pb s)) as (p1 & Ea & _ & _ & _ & _ & _ & _ & _ & Bq). rewrite Ea in E1. injection E1 as <- <-.
  cbn [hstep]. unfold solve. cbn [queues setFin h_pb h_built h_w]. rewrite Bq, nth_error_map. destruct (nth_error (queues (h_pb s)) i) as [q|]; cbn [option_map]; [|eauto].
  assert (Rb : rebuilds (q ++ [mkE SubstitutionAddition (addrUser n)]) = true) by (unfold rebuilds; rewrite existsb_app; cbn; apply orb_true_r). rewrite Rb. destruct (nth_error (h_built s) i); destruct (q ++ [mkE SubstitutionAddition (addrUser n)]); eauto.
Qed.

(* ---- weights ---- *)
Lemma step_weights b s o s' : (exists r, hstep b s o = HDone s' r) \/ hstep b s o = HThrew s' ->
  forall t, h_w s' t = (match o with UAdd u w => if u =? t then fst w else fst (h_w s t) | UWeight u y => if u =? t then y else fst (h_w s t) | _ => fst (h_w s t) end,
                        match o with UAdd u w => if u =? t then snd w else snd (h_w s t) | UAniso u y => if u =? t then y else snd (h_w s t) | _ => snd (h_w s t) end).
Proof.
  assert (K : forall s0 w r s1, (exists x, onPb s0 w r = HDone s1 x) \/ onPb s0 w r = HThrew s1 -> h_w s1 = w)
    by (intros s0 w r s1 [[x E]|E]; destruct r; try discriminate E; injection E; intros; subst; reflexivity).
  intros H t. destruct o as [u w|u|n u|u|u x|u x|i]; cbn [hstep] in H; try (apply K in H; rewrite H; unfold setW; try (rewrite (Nat.eqb_sym t u); destruct (Nat.eqb_spec u t) as [->|]); try (destruct w; reflexivity); destruct (h_w s t); reflexivity).
  assert (E : h_w s' = h_w s); [|rewrite E; destruct (h_w s t); reflexivity].
  unfold solve in H. cbv zeta in H.
  destruct (nth_error (queues (setFin (h_pb s) true)) i) as [[|e q]|], (nth_error (h_built s) i); try destruct (rebuilds _);
    destruct H as [[x H]|H]; try discriminate H; injection H; intros; subst; reflexivity.
Qed.
Lemma weights_run b : forall ops s s', hrun b s ops = Ok s' -> forall t,
  h_w s' t = (fold_left (fun x o => match o with UAdd u w => if u =? t then fst w else x | UWeight u y => if u =? t then y else x | _ => x end) ops (fst (h_w s t)),
              fold_left (fun x o => match o with UAdd u w => if u =? t then snd w else x | UAniso u y => if u =? t then y else x | _ => x end) ops (snd (h_w s t))).
Proof.
  induction ops as [|o ops IH]; intros s s' E t; cbn [hrun fold_left] in *.
  - injection E as <-. destruct (h_w s t); reflexivity.
  - destruct (hstep b s o) as [s1 r|s1|] eqn:E1; try discriminate E; rewrite (IH _ _ E t).
    + rewrite (step_weights b s o s1 (or_introl (ex_intro _ r E1)) t). reflexivity.
    + rewrite (step_weights b s o s1 (or_intror E1) t). reflexivity.
Qed.
Lemma weights_ok b ops s : hrun b hempty ops = Ok s -> forall t, h_w s t = (givenScalar t ops, givenAniso t ops).
Proof. intros E t. exact (weights_run b ops hempty s E t). Qed.
