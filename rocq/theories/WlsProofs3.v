From Coq Require Import List Bool Arith ZArith Lia Permutation.
Import ListNotations.
From Verif Require Import QueueModel SolverEventsModel WlsModel WlsSpec WlsProofs WlsProofs2.
From Verif Require Base SolverEventsSpec SolverEventsProofs QueueSpec QueueProofs.

Definition SI (task : nat -> bool) (own : nat -> nat) (st : state) : Prop :=
  PI task own (s_pb st) /\ match s_mem st with None => True | Some m => exists p0 L, HIm task own (s_pb st) m p0 L end.

Lemma fresh_HIm task own p m : PI task own p -> Mir p m -> m_q m = [] -> HIm task own p m p [].
Proof.
  intros [A B C D E] M Q. constructor; simpl; auto; try tauto. rewrite Q. reflexivity.
Qed.

Lemma sub_exists (p : problem) q : existsb isSubE q = true <-> exists e, In e q /\ QueueSpec.isSub e = true.
Proof. rewrite existsb_exists. reflexivity. Qed.

Lemma process_nil p maxp k : process p maxp SolverEventsModel.empty k = k.
Proof.
  unfold process. simpl. destruct k as [C B O X]; simpl. rewrite !app_nil_r.
  assert (F : forall (A : Type) (l : list A), filter (fun _ => true) l = l) by (intros A l; induction l; simpl; congruence).
  rewrite !F. f_equal. rewrite <- (map_id O) at 2. apply map_ext. reflexivity.
Qed.

Lemma solve_spec task own st : SI task own st ->
  match solve st with
  | Done st' => s_pb st' = s_pb st /\ exists m, s_mem st' = Some m /\ Mir (s_pb st) m /\ m_q m = []
  | Exc _ => throws st
  | Undef => False
  end.
Proof.
  intros [pi H]. unfold solve. pose proof (rebuild_spec (s_pb st) own (fun t c I => proj1 (pi_own _ _ _ pi t c I)) (pi_nd _ _ _ pi)) as RB.
  destruct (s_mem st) as [m|] eqn:SM.
  2:{ destruct (processProblem (s_pb st)) as [m|m|]; [|left; exact RB|exact RB]. simpl. split; [auto|]. exists m. destruct RB. auto. }
  destruct H as (p0 & L & hi). destruct (m_q m) as [|e0 q0] eqn:EQ.
  - assert (NS : existsb QueueSpec.isSub L = false).
    { destruct (existsb QueueSpec.isSub L) eqn:X; [|auto]. apply existsb_exists in X as (e & I & S).
      destruct (qfacts _ _ _ _ _ _ hi) as (_ & _ & _ & _ & QS). apply (QS e S) in I. rewrite EQ in I. destruct I. }
    split; [auto|]. exists m. split; [auto|]. split; [|auto].
    pose proof (finish _ _ _ _ _ _ pi hi NS (withQueue [] m) []) as F. rewrite EQ in F.
    unfold SolverEventsModel.run in F. simpl in F. rewrite process_nil in F.
    replace m with (mkM (m_map m) (m_cnt m) (m_maxp m) [] (m_sol m)) by (destruct m; simpl in *; congruence).
    apply F; auto.
    + apply LI_queue. apply (LI0 _ _ _ _ _ _ hi NS).
    + intros t. destruct (h_mir _ _ _ _ _ _ hi) as [M _]. pose proof (mi_map _ _ M) as MM. simpl in MM.
      split; intros I; apply in_key in I as (c & I); eapply key_in; apply MM; eauto.
  - destruct (existsb isSubE (e0 :: q0)) eqn:X.
    + destruct (processProblem (s_pb st)) as [m'|m'|]; [|left; exact RB|exact RB]. simpl. split; [auto|]. exists m'. destruct RB. auto.
    + assert (NQ : forall e, In e (m_q m) -> QueueSpec.isSub e = false).
      { intros e I. destruct (QueueSpec.isSub e) eqn:S; [|auto]. rewrite EQ in I.
        assert (Y : existsb isSubE (e0 :: q0) = true) by (apply (sub_exists (s_pb st)); eauto). congruence. }
      assert (NS : existsb QueueSpec.isSub L = false).
      { destruct (existsb QueueSpec.isSub L) eqn:Y; [|auto]. apply existsb_exists in Y as (e & I & S).
        destruct (qfacts _ _ _ _ _ _ hi) as (_ & _ & _ & _ & QS). apply (QS e S) in I. apply NQ in I. congruence. }
      rewrite <- EQ. destruct (qfacts _ _ _ _ _ _ hi) as (QV & _).
      pose proof (loop_LI (s_pb st) own (P0of m) m (pi_nd _ _ _ pi) (fun t c I => proj1 (pi_own _ _ _ pi t c I)) (m_q m)
                   (keys (p_map p0)) m [] [] (LI0 _ _ _ _ _ _ hi NS)) as LL.
      assert (DK : forall t, In t (keys (m_map m)) <-> In t (keys (p_map p0))).
      { intros t. destruct (h_mir _ _ _ _ _ _ hi) as [M _]. pose proof (mi_map _ _ M) as MM. simpl in MM.
        split; intros I; apply in_key in I as (c & I); eapply key_in; apply MM; eauto. }
      specialize (LL DK QV NQ (qpresent _ _ _ _ _ _ hi NS)). change (SolverEventsModel.run []) with SolverEventsModel.empty in LL.
      destruct (loop (s_pb st) (m_q m) m SolverEventsModel.empty) as [[m' s']|[m' s']|]; [| |exact LL].
      * destruct LL as (l' & -> & LI' & Q' & DK'). simpl in LI'. simpl. split; [auto|]. eexists. split; [reflexivity|]. split; [|exact Q'].
        exact (finish _ _ _ _ _ _ pi hi NS m' l' LI' Q' DK').
      * destruct LL as (e & I & C). right. exists m, e. auto.
Qed.

Lemma notify_event task own p m p0 L e : HIm task own p m p0 L ->
  QueueSpec.valid (keys (p_map p0)) (L ++ [e]) -> task (e_emitter e) = negb (QueueSpec.isSub e) ->
  exists q, addEvent (m_q m) e = Base.Ok q /\ queue (L ++ [e]) = Base.Ok q /\
    (forall e', In e' (L ++ [e]) -> task (e_emitter e') = negb (QueueSpec.isSub e')).
Proof.
  intros hi V T. assert (TT : forall e', In e' (L ++ [e]) -> task (e_emitter e') = negb (QueueSpec.isSub e')).
  { intros e' I. apply in_app_iff in I as [I|[<-|[]]]; [now apply (h_task _ _ _ _ _ _ hi)|auto]. }
  destruct (QueueProofs.queue_net _ _ V (addr task _ TT)) as (q & E & _). exists q. split; [|auto].
  unfold queue in E. rewrite QueueProofs.addEvents_app in E. fold (queue L) in E. rewrite (h_q _ _ _ _ _ _ hi) in E. simpl in E.
  destruct (addEvent (m_q m) e); simpl in E; congruence.
Qed.

Lemma existsb_snoc {A} (f : A -> bool) l x : existsb f (l ++ [x]) = false <-> existsb f l = false /\ f x = false.
Proof. rewrite existsb_app. simpl. rewrite orb_false_r, orb_false_iff. tauto. Qed.
Lemma changes_snoc t l e : QueueSpec.changes t (l ++ [e]) = QueueSpec.changes1 t (QueueSpec.changes t l) e.
Proof. unfold QueueSpec.changes. now rewrite fold_left_app. Qed.
Lemma tasks_snoc S l e : QueueSpec.tasksAfter S (l ++ [e]) = QueueSpec.tasks1 (QueueSpec.tasksAfter S l) e.
Proof. unfold QueueSpec.tasksAfter. now rewrite fold_left_app. Qed.
Lemma in_snoc {A} (x y : A) l : In x (l ++ [y]) <-> In x l \/ x = y.
Proof. rewrite in_app_iff. simpl. intuition. Qed.
Lemma Mir_queue p m q : Mir p m -> Mir p (mkM (m_map m) (m_cnt m) (m_maxp m) q (m_sol m)).
Proof. intros [A B]. split; auto. Qed.

Section Ops.
Variable task : nat -> bool.

Lemma step_add own st t : SI task own st -> legal task st (Add t) ->
  exists own' st', step st (Add t) = Done st' /\ SI task own' st'.
Proof.
  intros [pi H] (Tt & NI & NU). set (p := s_pb st) in *. set (own' := upd own (p_fresh p) t).
  assert (OW : forall (u : nat) c, c < p_fresh p -> own' c = own c).
  { intros u c Lt. unfold own', upd. destruct (Nat.eqb_spec c (p_fresh p)); [lia|auto]. }
  assert (NK : ~ In t (keys (p_map p))) by (rewrite <- (pi_keys _ _ _ pi); exact NI).
  assert (pi' : PI task own' (addTaskP t p)).
  { destruct pi as [A B C D E]. constructor; cbn [addTaskP p_tr p_map p_fresh].
    - intros u. rewrite in_snoc, set_keys, A. tauto.
    - apply SolverEventsProofs.nodup_snoc; auto.
    - now apply set_nodup.
    - intros u c I. apply set_in in I as [[-> ->]|[N I]].
      + split; [|lia]. unfold own', upd. now rewrite Nat.eqb_refl.
      + destruct (D _ _ I). rewrite (OW u) by auto. split; [auto|lia].
    - intros u I. apply in_snoc in I as [I| ->]; auto. }
  unfold step, notify, mapP. cbn [s_mem s_pb]. destruct (s_mem st) as [m|] eqn:SM.
  2:{ exists own'. eexists. split; [reflexivity|]. split; [exact pi'|]. exact I. }
  destruct H as (p0 & L & hi).
  assert (V : QueueSpec.valid (keys (p_map p0)) (L ++ [mkE TaskAddition t])).
  { apply QueueProofs.valid_app. split; [apply (h_valid _ _ _ _ _ _ hi)|]. simpl. split; [|exact I].
    rewrite <- (h_keys _ _ _ _ _ _ hi). exact NK. }
  destruct (notify_event _ _ _ _ _ _ _ hi V) as (q & E & Q & TT); [simpl; now rewrite Tt|].
  rewrite E. exists own'. eexists. split; [reflexivity|]. split; [exact pi'|]. simpl. exists p0, (L ++ [mkE TaskAddition t]).
  destruct hi. constructor; cbn [addTaskP p_tr p_map p_fresh p_prio p_w p_a p_env m_q]; auto.
  - intros u c I. destruct (h_own0 _ _ I). rewrite (OW u) by lia. auto.
  - intros u. rewrite set_keys, tasks_snoc. unfold QueueSpec.tasks1. simpl. rewrite <- h_keys. intuition.
  - intros u c I N. apply set_in. right. rewrite in_snoc in N.
    assert (K : In (u, c) (p_map p)) by (apply h_keep; auto). split; [|exact K].
    intros ->. apply NK. eapply key_in; eauto.
  - intros u c I J. apply in_snoc in I as [I|I]; [|discriminate]. apply set_in in J as [[-> ->]|[D J]]; [exact h_fresh|eauto].
  - intros u I N. rewrite in_snoc in N. rewrite changes_snoc. unfold QueueSpec.changes1. simpl.
    destruct (Nat.eqb_spec t u) as [->|D].
    + exfalso. apply in_key in I as (c & I). apply NK. eapply key_in. apply h_keep; eauto.
    + intros X. apply h_w; auto.
  - intros u I N. rewrite in_snoc in N. rewrite changes_snoc. unfold QueueSpec.changes1. simpl.
    destruct (Nat.eqb_spec t u) as [->|D].
    + exfalso. apply in_key in I as (c & I). apply NK. eapply key_in. apply h_keep; eauto.
    + intros X. apply h_a; auto.
  - intros X. apply existsb_snoc in X as [X _]. auto.
  - intros u X I. apply existsb_snoc in X as [X _]. apply in_snoc in I as [I|I]; [auto|]. injection I as ->. exact NU.
Qed.

Lemma step_rem own st t : SI task own st -> legal task st (Rem t) ->
  exists st', step st (Rem t) = Done st' /\ SI task own st'.
Proof.
  intros [pi H] Hin. simpl in Hin. set (p := s_pb st) in *.
  assert (pi' : PI task own (removeTaskP t p)).
  { destruct pi as [A B C D E]. constructor; cbn [removeTaskP p_tr p_map p_fresh].
    - intros u. rewrite SolverEventsProofs.erase_in by exact B. rewrite erase_keys, A. tauto.
    - now apply SolverEventsProofs.erase_nodup.
    - now apply erase_nodup.
    - intros u c I. apply erase_in in I as [I _]. auto.
    - intros u I. apply SolverEventsProofs.erase_in in I as [I _]; auto. }
  unfold step, notify. fold p. replace (SolverEventsModel.mem t (p_tr p)) with true by (symmetry; now apply SolverEventsProofs.mem_in).
  unfold mapP. cbn [s_mem s_pb]. destruct (s_mem st) as [m|] eqn:SM.
  2:{ eexists. split; [reflexivity|]. split; [exact pi'|]. exact I. }
  destruct H as (p0 & L & hi).
  assert (IK : In t (keys (p_map p))) by now apply (pi_keys _ _ _ pi).
  assert (V : QueueSpec.valid (keys (p_map p0)) (L ++ [mkE TaskRemoval t])).
  { apply QueueProofs.valid_app. split; [apply (h_valid _ _ _ _ _ _ hi)|]. simpl. split; [|exact I].
    now rewrite <- (h_keys _ _ _ _ _ _ hi). }
  destruct (notify_event _ _ _ _ _ _ _ hi V) as (q & E & Q & TT); [simpl; now rewrite (pi_task _ _ _ pi)|].
  rewrite E. eexists. split; [reflexivity|]. split; [exact pi'|]. simpl. exists p0, (L ++ [mkE TaskRemoval t]).
  destruct hi. constructor; cbn [removeTaskP p_tr p_map p_fresh p_prio p_w p_a p_env m_q]; auto.
  - intros u. rewrite erase_keys, tasks_snoc. unfold QueueSpec.tasks1. simpl. rewrite filter_In, <- h_keys, negb_true_iff, Nat.eqb_neq. tauto.
  - intros u c I N. rewrite in_snoc in N. apply erase_in. split; [apply h_keep; auto|]. intros ->. auto.
  - intros u c I J. apply erase_in in J as [J D]. apply in_snoc in I as [I|I]; [eauto|]. injection I as ->. congruence.
  - intros u I N. rewrite in_snoc in N. rewrite changes_snoc. unfold QueueSpec.changes1. simpl.
    destruct (Nat.eqb_spec t u) as [->|D]; [tauto|]. intros X. apply h_w; auto.
  - intros u I N. rewrite in_snoc in N. rewrite changes_snoc. unfold QueueSpec.changes1. simpl.
    destruct (Nat.eqb_spec t u) as [->|D]; [tauto|]. intros X. apply h_a; auto.
  - intros X. apply existsb_snoc in X as [X _]. auto.
  - intros u X I. apply existsb_snoc in X as [X _]. apply in_snoc in I as [I|I]; [auto|discriminate].
Qed.

Lemma step_w own st t v (sc : bool) : SI task own st ->
  exists st', step st (if sc then SetW t v else SetA t v) = Done st' /\ SI task own st'.
Proof.
  intros [pi H]. set (p := s_pb st) in *.
  set (p' := if sc then setWeight t v p else setAniso t v p).
  assert (SAME : p_tr p' = p_tr p /\ p_map p' = p_map p /\ p_fresh p' = p_fresh p /\ p_prio p' = p_prio p /\ p_env p' = p_env p)
    by (unfold p'; destruct sc; simpl; auto).
  destruct SAME as (S1 & S2 & S3 & S4 & S5).
  assert (pi' : PI task own p') by (destruct pi; constructor; rewrite ?S1, ?S2, ?S3; auto).
  assert (ST : step st (if sc then SetW t v else SetA t v) =
    match find t (p_map p) with
    | Some _ => notify (mkS p' (s_mem st)) (mkE (if sc then WeightChange else AnisotropicWeightChange) t)
    | None => Done (mkS p' (s_mem st)) end) by (unfold p'; destruct sc; reflexivity).
  rewrite ST. clear ST.
  assert (WU : forall u, u <> t -> p_w p' u = p_w p u /\ p_a p' u = p_a p u).
  { intros u D. unfold p'. apply Nat.eqb_neq in D. destruct sc; simpl; unfold upd; rewrite D; auto. }
  assert (WO : if sc then p_a p' t = p_a p t else p_w p' t = p_w p t) by (unfold p'; destruct sc; reflexivity).
  destruct (find t (p_map p)) as [c|] eqn:F.
  - apply find_in in F. unfold notify. cbn [s_mem s_pb]. destruct (s_mem st) as [m|] eqn:SM.
    2:{ eexists. split; [reflexivity|]. split; [exact pi'|]. exact I. }
    destruct H as (p0 & L & hi). set (e := mkE (if sc then WeightChange else AnisotropicWeightChange) t).
    assert (IK : In t (keys (p_map p))) by (eapply key_in; eauto).
    assert (V : QueueSpec.valid (keys (p_map p0)) (L ++ [e])).
    { apply QueueProofs.valid_app. split; [apply (h_valid _ _ _ _ _ _ hi)|].
      rewrite (h_keys _ _ _ _ _ _ hi) in IK. unfold e. destruct sc; simpl; auto. }
    assert (NS : QueueSpec.isSub e = false) by (unfold e; destruct sc; reflexivity).
    destruct (notify_event _ _ _ _ _ _ _ hi V) as (q & E & Q & TT).
    { rewrite NS. unfold e; simpl. apply (pi_task _ _ _ pi), (pi_keys _ _ _ pi). exact IK. }
    rewrite E. eexists. split; [reflexivity|]. split; [exact pi'|]. simpl. exists p0, (L ++ [e]).
    assert (NR : forall u, mkE TaskRemoval u <> e) by (intros u; unfold e; destruct sc; discriminate).
    assert (NA : forall u, mkE TaskAddition u <> e) by (intros u; unfold e; destruct sc; discriminate).
    destruct hi. constructor; rewrite ?S1, ?S2, ?S3, ?S4, ?S5; auto.
    + intros u. rewrite tasks_snoc. unfold QueueSpec.tasks1, e. rewrite h_keys. destruct sc; simpl; tauto.
    + intros u d I N. rewrite in_snoc in N. auto.
    + intros u d I J. apply in_snoc in I as [I|I]; [eauto|]. now apply NR in I.
    + intros u I N. rewrite in_snoc in N. rewrite changes_snoc. unfold QueueSpec.changes1, e. simpl.
      destruct (Nat.eqb_spec t u) as [->|D].
      * destruct sc; cbn [fst snd]; [discriminate|]. rewrite WO. auto.
      * intros X. rewrite (proj1 (WU u (not_eq_sym D))). auto.
    + intros u I N. rewrite in_snoc in N. rewrite changes_snoc. unfold QueueSpec.changes1, e. simpl.
      destruct (Nat.eqb_spec t u) as [->|D].
      * destruct sc; cbn [fst snd]; [|discriminate]. rewrite WO. auto.
      * intros X. rewrite (proj2 (WU u (not_eq_sym D))). auto.
    + intros X. apply existsb_snoc in X as [X _]. auto.
    + intros u X I. apply existsb_snoc in X as [X _]. apply in_snoc in I as [I|I]; [auto|]. now apply NA in I.
  - eexists. split; [reflexivity|]. split; [exact pi'|]. simpl. destruct (s_mem st) as [m|]; [|exact I].
    destruct H as (p0 & L & hi). exists p0, L. apply find_none in F.
    destruct hi. constructor; rewrite ?S1, ?S2, ?S3, ?S4, ?S5; auto.
    + intros u I N X. destruct (Nat.eq_dec u t) as [->|D]; [|rewrite (proj1 (WU u D)); auto].
      exfalso. apply in_key in I as (d & I). apply F. eapply key_in. apply h_keep; eauto.
    + intros u I N X. destruct (Nat.eq_dec u t) as [->|D]; [|rewrite (proj2 (WU u D)); auto].
      exfalso. apply in_key in I as (d & I). apply F. eapply key_in. apply h_keep; eauto.
Qed.

Lemma step_prio own st t v : SI task own st -> legal task st (SetP t v) ->
  exists st', step st (SetP t v) = Done st' /\ SI task own st'.
Proof.
  intros [pi H] [NT NM]. eexists. split; [reflexivity|]. split; [destruct pi; constructor; auto|]. simpl.
  destruct (s_mem st) as [m|] eqn:SM; [|exact I]. destruct H as (p0 & L & hi). exists p0, L.
  specialize (NM m eq_refl). destruct hi. constructor; cbn [setPrio p_tr p_map p_fresh p_prio p_w p_a p_env]; auto.
  intros u I. unfold upd. destruct (Nat.eqb_spec u t) as [->|D]; [|auto].
  exfalso. apply NM. destruct h_mir as [M _]. apply in_key in I as (c & I). apply (mi_map _ _ M) in I. eapply key_in; eauto.
Qed.
Lemma step_sub own st a e : SI task own st -> legal task st (Sub a e) ->
  exists st', step st (Sub a e) = Done st' /\ SI task own st'.
Proof.
  intros [pi H] TA. simpl in TA. unfold step, notify, mapP. cbn [s_mem s_pb].
  assert (pi' : PI task own (setEnv e (s_pb st))) by (destruct pi; constructor; auto).
  destruct (s_mem st) as [m|] eqn:SM.
  2:{ eexists. split; [reflexivity|]. split; [exact pi'|]. exact I. }
  destruct H as (p0 & L & hi).
  assert (V : QueueSpec.valid (keys (p_map p0)) (L ++ [mkE SubstitutionAddition a])).
  { apply QueueProofs.valid_app. split; [apply (h_valid _ _ _ _ _ _ hi)|]. simpl. auto. }
  destruct (notify_event _ _ _ _ _ _ _ hi V TA) as (q & E & Q & TT).
  rewrite E. eexists. split; [reflexivity|]. split; [exact pi'|]. simpl. exists p0, (L ++ [mkE SubstitutionAddition a]).
  destruct hi. constructor; cbn [setEnv p_tr p_map p_fresh p_prio p_w p_a p_env]; auto.
  - intros u. rewrite tasks_snoc. exact (h_keys u).
  - intros u c I N. rewrite in_snoc in N. auto.
  - intros u c I J. apply in_snoc in I as [I|I]; [eauto|discriminate].
  - intros u I N. rewrite in_snoc in N. rewrite changes_snoc. unfold QueueSpec.changes1. simpl.
    destruct (a =? u); intros X; apply h_w; auto.
  - intros u I N. rewrite in_snoc in N. rewrite changes_snoc. unfold QueueSpec.changes1. simpl.
    destruct (a =? u); intros X; apply h_a; auto.
  - intros X. apply existsb_snoc in X as [_ X]. discriminate.
  - intros u X. apply existsb_snoc in X as [_ X]. discriminate.
Qed.

Lemma history_SI l st : history task l st -> exists own, SI task own st.
Proof.
  induction 1 as [pr w a e|l s o s' H [own IH] Lg St].
  - exists (fun _ => 0). split; [|exact I]. constructor; simpl; try tauto; constructor.
  - destruct o.
    + destruct (step_add own s t IH Lg) as (own' & s2 & E & R). rewrite St in E. injection E as <-. eauto.
    + destruct (step_rem own s t IH Lg) as (s2 & E & R). rewrite St in E. injection E as <-. eauto.
    + destruct (step_w own s t v true IH) as (s2 & E & R). simpl in E, St. rewrite St in E. injection E as <-. eauto.
    + destruct (step_w own s t v false IH) as (s2 & E & R). simpl in E, St. rewrite St in E. injection E as <-. eauto.
    + destruct Lg.
    + destruct (step_prio own s t v IH Lg) as (s2 & E & R). rewrite St in E. injection E as <-. eauto.
    + destruct (step_sub own s a e IH Lg) as (s2 & E & R). rewrite St in E. injection E as <-. eauto.
    + destruct Lg.
    + exists own. pose proof (solve_spec task own s IH) as SP. simpl in St. rewrite St in SP. destruct SP as (E & m & EM & M & Q).
      destruct IH as [pi _]. split; [now rewrite E|]. rewrite EM, E. exists (s_pb s), []. now apply fresh_HIm.
Qed.

Lemma mirror_after_solve l st st' : history task l st -> step st Solve = Done st' ->
  s_pb st' = s_pb st /\ exists m, s_mem st' = Some m /\ mirrors (s_pb st') m.
Proof.
  intros H St. destruct (history_SI l st H) as (own & S). pose proof (solve_spec task own st S) as SP. simpl in St. rewrite St in SP.
  destruct SP as (E & m & EM & [M _] & Q). split; [exact E|]. exists m. split; [exact EM|]. rewrite E. destruct M. constructor; auto.
Qed.
Lemma solve_defined l st : history task l st -> step st Solve <> Undef /\ (forall st', step st Solve = Exc st' -> throws st).
Proof.
  intros H. destruct (history_SI l st H) as (own & S). pose proof (solve_spec task own st S) as SP. simpl. destruct (solve st).
  - split; [discriminate|discriminate].
  - split; [discriminate|auto].
  - destruct SP.
Qed.
Lemma others_succeed l st o : history task l st -> legal task st o -> o <> Solve -> exists st', step st o = Done st'.
Proof.
  intros H Lg NS. destruct (history_SI l st H) as (own & IH). destruct o.
  - destruct (step_add own st t IH Lg) as (own' & s2 & E & R). eauto.
  - destruct (step_rem own st t IH Lg) as (s2 & E & R). eauto.
  - destruct (step_w own st t v true IH) as (s2 & E & R). eauto.
  - destruct (step_w own st t v false IH) as (s2 & E & R). eauto.
  - destruct Lg.
  - destruct (step_prio own st t v IH Lg) as (s2 & E & R). eauto.
  - destruct (step_sub own st a e IH Lg) as (s2 & E & R). eauto.
  - destruct Lg.
  - congruence.
Qed.
End Ops.
