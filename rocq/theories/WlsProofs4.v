(* Proofs for C30: the weighted scheme after exceptions and unsupported calls. *)
From Coq Require Import List Bool Arith ZArith Lia.
Import ListNotations.
From Verif Require Import QueueModel WlsModel WlsSpec WlsProofs WlsProofs2 WlsProofs3.
From Verif Require SolverEventsProofs.

Lemma scan_bad p l t c : In (t, c) l -> bad p t -> forall cnt maxp r, scan p l cnt maxp <> Done r.
Proof.
  intros I [U B]. induction l as [|[u d] l IH]; [destruct I|]. intros cnt maxp r. cbn [scan]. destruct I as [I|I].
  - injection I as -> ->. rewrite U. destruct B as [B|[Z Q]].
    + rewrite B. discriminate.
    + apply Nat.eqb_neq in Z. rewrite Z, Q. destruct (negb _); discriminate.
  - specialize (IH I). destruct (ev_used (p_env p) u); [apply IH|]. destruct (negb _); [discriminate|].
    destruct (p_prio p u =? 0); [apply IH|]. destruct (ev_eq (p_env p) u); [apply IH|discriminate].
Qed.
Lemma process_bad p t c m : In (t, c) (p_map p) -> bad p t -> processProblem p <> Done m.
Proof. intros I B. unfold processProblem. pose proof (scan_bad p _ t c I B [] 0) as N. destruct (scan p (p_map p) [] 0) as [[a b]|[a b]|]; [exfalso; exact (N _ eq_refl)|discriminate..]. Qed.

Section Resync.
Variable task : nat -> bool.

Lemma PI_same own p p' : PI task own p -> p_tr p' = p_tr p -> p_map p' = p_map p -> p_fresh p' = p_fresh p -> PI task own p'.
Proof. intros [A B C D E] T M F. constructor; rewrite ?T, ?M, ?F; auto. Qed.
Lemma notify_pb s e s' : notify s e = Done s' \/ notify s e = Exc s' -> s_pb s' = s_pb s.
Proof.
  unfold notify. destruct (s_mem s) as [m|]; [|intros [H|H]; [injection H as <-; reflexivity|discriminate]].
  destruct (addEvent (m_q m) e); intros [H|H]; try discriminate. injection H as <-. reflexivity.
Qed.
Lemma solve_pb s s' : solve s = Done s' \/ solve s = Exc s' -> s_pb s' = s_pb s.
Proof.
  unfold solve. destruct (s_mem s) as [m|].
  2:{ destruct (processProblem (s_pb s)); intros [H|H]; try discriminate; injection H as <-; reflexivity. }
  destruct (m_q m) as [|e q].
  { intros [H|H]; [injection H as <-; reflexivity|discriminate]. }
  destruct (existsb isSubE (e :: q)).
  - destruct (processProblem (s_pb s)); intros [H|H]; try discriminate; injection H as <-; reflexivity.
  - destruct (loop (s_pb s) (e :: q) m SolverEventsModel.empty) as [[m' x]|[m' x]|]; intros [H|H]; try discriminate; injection H as <-; reflexivity.
Qed.
Lemma add_PI own p t : PI task own p -> task t = true -> ~ In t (p_tr p) -> PI task (upd own (p_fresh p) t) (addTaskP t p).
Proof.
  intros [A B C D E] Tt NI. constructor; cbn [addTaskP p_tr p_map p_fresh].
  - intros u. rewrite in_snoc, set_keys, A. tauto.
  - apply SolverEventsProofs.nodup_snoc; auto.
  - now apply set_nodup.
  - intros u c I. apply set_in in I as [[-> ->]|[N I]].
    + split; [|lia]. unfold upd. now rewrite Nat.eqb_refl.
    + destruct (D _ _ I) as [Q Lt]. split; [|lia]. unfold upd. destruct (Nat.eqb_spec c (p_fresh p)); [lia|exact Q].
  - intros u I. apply in_snoc in I as [I| ->]; auto.
Qed.
Lemma rem_PI own p t : PI task own p -> PI task own (removeTaskP t p).
Proof.
  intros [A B C D E]. constructor; cbn [removeTaskP p_tr p_map p_fresh].
  - intros u. rewrite SolverEventsProofs.erase_in by exact B. rewrite erase_keys, A. tauto.
  - now apply SolverEventsProofs.erase_nodup.
  - now apply erase_nodup.
  - intros u c I. apply erase_in in I as [I _]. auto.
  - intros u I. apply SolverEventsProofs.erase_in in I as [I _]; auto.
Qed.
Lemma any_PI l st : anyHistory task l st -> exists own, PI task own (s_pb st).
Proof.
  induction 1 as [pr w a e|l s o s' H [own IH] Lg St].
  - exists (fun _ => 0). constructor; simpl; try tauto; constructor.
  - destruct o; cbn [step] in St.
    + destruct Lg as [Tt NI]. exists (upd own (p_fresh (s_pb s)) t). rewrite (notify_pb _ _ _ St). now apply add_PI.
    + exists own. destruct (SolverEventsModel.mem t (p_tr (s_pb s))).
      * rewrite (notify_pb _ _ _ St). now apply rem_PI.
      * destruct St as [St|St]; [injection St as <-; exact IH|discriminate].
    + exists own. destruct (find t (p_map (s_pb s))).
      * rewrite (notify_pb _ _ _ St). eapply PI_same; [exact IH|reflexivity..].
      * destruct St as [St|St]; [injection St as <-|discriminate]. eapply PI_same; [exact IH|reflexivity..].
    + exists own. destruct (find t (p_map (s_pb s))).
      * rewrite (notify_pb _ _ _ St). eapply PI_same; [exact IH|reflexivity..].
      * destruct St as [St|St]; [injection St as <-|discriminate]. eapply PI_same; [exact IH|reflexivity..].
    + exists own. destruct St as [St|St]; [injection St as <-|discriminate]. eapply PI_same; [exact IH|reflexivity..].
    + exists own. destruct St as [St|St]; [injection St as <-|discriminate]. eapply PI_same; [exact IH|reflexivity..].
    + exists own. rewrite (notify_pb _ _ _ St). eapply PI_same; [exact IH|reflexivity..].
    + exists own. destruct St as [St|St]; [injection St as <-|discriminate]. eapply PI_same; [exact IH|reflexivity..].
    + exists own. rewrite (solve_pb _ _ St). exact IH.
Qed.
Lemma step_SI own s o s' : SI task own s -> legal task s o -> step s o = Done s' -> exists own', SI task own' s'.
Proof.
  intros IH Lg St. destruct o.
  - destruct (step_add task own s t IH Lg) as (own' & s2 & E & R). rewrite St in E. injection E as <-. eauto.
  - destruct (step_rem task own s t IH Lg) as (s2 & E & R). rewrite St in E. injection E as <-. eauto.
  - destruct (step_w task own s t v true IH) as (s2 & E & R). simpl in E, St. rewrite St in E. injection E as <-. eauto.
  - destruct (step_w task own s t v false IH) as (s2 & E & R). simpl in E, St. rewrite St in E. injection E as <-. eauto.
  - destruct Lg.
  - destruct (step_prio task own s t v IH Lg) as (s2 & E & R). rewrite St in E. injection E as <-. eauto.
  - destruct (step_sub task own s a e IH Lg) as (s2 & E & R). rewrite St in E. injection E as <-. eauto.
  - destruct Lg.
  - exists own. pose proof (solve_spec task own s IH) as SP. simpl in St. rewrite St in SP. destruct SP as (E & m & EM & M & Q).
    destruct IH as [pi _]. split; [now rewrite E|]. rewrite EM, E. exists (s_pb s), []. now apply fresh_HIm.
Qed.
Lemma since_SI s0 own l s : SI task own s0 -> since task s0 l s -> exists own', SI task own' s.
Proof. intros S0. induction 1 as [|l s o s' H [own' IH] Lg St]; [eauto|]. eapply step_SI; eauto. Qed.
Lemma sub_solve st a e : exists s1, step st (Sub a e) = Done s1 /\ s_pb s1 = setEnv e (s_pb st) /\
  solve s1 = match processProblem (s_pb s1) with
             | Done m => Done (mkS (s_pb s1) (Some m))
             | Exc m => Exc (match s_mem s1 with None => s1 | Some _ => mkS (s_pb s1) (Some m) end)
             | Undef => Undef end.
Proof.
  cbn [step]. unfold notify, mapP. cbn [s_mem s_pb]. destruct (s_mem st) as [m|] eqn:SM.
  - cbn. eexists. split; [reflexivity|]. split; [reflexivity|]. unfold solve. cbn [s_pb s_mem m_q].
    assert (X : existsb isSubE (m_q m ++ [mkE SubstitutionAddition a]) = true) by (rewrite existsb_app; cbn; apply orb_true_r).
    destruct (m_q m ++ [mkE SubstitutionAddition a]) as [|e0 q0] eqn:Q; [destruct (m_q m); discriminate|]. rewrite X. reflexivity.
  - eexists. split; [reflexivity|]. split; [reflexivity|]. reflexivity.
Qed.
Lemma resync l st a e : anyHistory task l st -> task a = false -> exists s1, step st (Sub a e) = Done s1 /\ step s1 Solve <> Undef /\
  ((exists s2, step s1 Solve = Exc s2) <-> exists t c, In (t, c) (p_map (s_pb s1)) /\ bad (s_pb s1) t) /\
  (forall s2 l' st' st'', step s1 Solve = Done s2 -> since task s2 l' st' -> step st' Solve = Done st'' ->
     s_pb st'' = s_pb st' /\ exists m, s_mem st'' = Some m /\ mirrors (s_pb st'') m).
Proof.
  intros H TA. destruct (any_PI l st H) as (own & pi0). destruct (sub_solve st a e) as (s1 & E1 & P1 & S1).
  assert (pi : PI task own (s_pb s1)) by (rewrite P1; eapply PI_same; [exact pi0|reflexivity..]).
  pose proof (rebuild_spec (s_pb s1) own (fun t c I => proj1 (pi_own _ _ _ pi t c I)) (pi_nd _ _ _ pi)) as RB.
  exists s1. split; [exact E1|]. cbn [step]. rewrite S1. destruct (processProblem (s_pb s1)) as [m|m|] eqn:EP.
  - split; [discriminate|]. split; [split; [intros [s2 X]; discriminate|intros (t & c & I & B); exfalso; exact (process_bad _ t c m I B EP)]|]. intros s2 l' st' st'' X Hs Hd. injection X as <-. destruct RB as [MR Q].
    assert (SI0 : SI task own (mkS (s_pb s1) (Some m))).
    { split; [exact pi|]. cbn. exists (s_pb s1), []. now apply fresh_HIm. }
    destruct (since_SI _ own l' st' SI0 Hs) as (own' & S). pose proof (solve_spec task own' st' S) as SP. rewrite Hd in SP.
    destruct SP as (E & m' & EM & [M _] & Q'). split; [exact E|]. exists m'. split; [exact EM|]. rewrite E. destruct M. constructor; auto.
  - split; [discriminate|]. split; [split; [intros _; exact RB|intros _; eexists; reflexivity]|]. discriminate.
  - destruct RB.
Qed.
End Resync.
