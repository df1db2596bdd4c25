From Coq Require Import List Bool Arith ZArith Lia Permutation.
Import ListNotations.
From Verif Require Import QueueModel SolverEventsModel WlsModel WlsSpec WlsProofs.
From Verif Require Base SolverEventsSpec SolverEventsProofs QueueSpec QueueProofs.

Section L2.
Variable p : problem.
Variable own : nat -> nat.
Variable P0 : pb.
Variable m0 : memory.
Hypothesis p_nd : NoDup (keys (p_map p)).
Hypothesis p_own : forall t c, In (t, c) (p_map p) -> own c = t.

Lemma loop_LI q : forall S m l pre, LI p own P0 m0 m l pre -> (forall t, In t (keys (m_map m)) <-> In t S) ->
  QueueSpec.valid S q -> (forall e, In e q -> QueueSpec.isSub e = false) ->
  (forall e, In e q -> match e_type e with TaskAddition => In (e_emitter e) (keys (p_map p)) /\ ev_used (p_env p) (e_emitter e) = false
   | WeightChange | AnisotropicWeightChange => In (e_emitter e) (keys (p_map p)) | _ => True end) ->
  match loop p q m (SolverEventsModel.run l) with
  | Done (m', s') => exists l', s' = SolverEventsModel.run l' /\ LI p own P0 m0 m' l' (pre ++ q) /\ m_q m' = [] /\
                     (forall t, In t (keys (m_map m')) <-> In t (QueueSpec.tasksAfter S q))
  | Exc _ => exists e, In e q /\ cause p e
  | Undef => False
  end.
Proof.
  induction q as [|e q IH]; intros S m l pre L DS V NS PR.
  - simpl. exists l. rewrite app_nil_r. split; [reflexivity|]. split; [now apply LI_queue|]. auto.
  - simpl. pose proof (handle_LI p own P0 m0 p_nd p_own S e q (withQueue q m) l pre (LI_queue _ _ _ _ _ _ _ q L) DS V
                        (NS e (or_introl eq_refl)) (PR e (or_introl eq_refl))) as H.
    destruct (handle p e (withQueue q m) (SolverEventsModel.run l)) as [[m1 s1]|x|]; [|exists e; auto|exact H].
    destruct H as (l1 & -> & L1 & Q1 & D1). destruct V as [_ V2].
    specialize (IH (QueueSpec.tasks1 S e) m1 l1 (pre ++ [e]) L1 D1 V2 (fun e0 I => NS e0 (or_intror I)) (fun e0 I => PR e0 (or_intror I))).
    destruct (loop p q m1 (SolverEventsModel.run l1)) as [[m2 s2]|x|]; [|destruct IH as (e0 & I & C); eauto|exact IH].
    rewrite <- app_assoc in IH. exact IH.
Qed.
End L2.

Definition Mir (p : problem) (m : memory) : Prop :=
  mirrors p (withQueue [] m) /\ Permutation (m_cnt m) (flat (uv p) (m_map m)).

(* ---- rebuild ---- *)
Lemma scan_spec p l : forall cnt maxp,
  match scan p l cnt maxp with
  | Done (cnt', _) => Permutation cnt' (flat (uv p) l ++ cnt)
  | Exc _ => exists t c, In (t, c) l /\ bad p t
  | Undef => False
  end.
Proof.
  induction l as [|[t c] l IH]; intros cnt maxp; simpl; [reflexivity|]. unfold uv at 1. simpl.
  assert (X : forall (o : outcome (list nat * nat)), match o with Exc _ => exists t0 c0, In (t0, c0) l /\ bad p t0 | _ => True end ->
               match o with Exc _ => exists t0 c0, ((t, c) = (t0, c0) \/ In (t0, c0) l) /\ bad p t0 | _ => True end).
  { intros [a|a|]; auto. intros (t0 & c0 & I & B). eauto. }
  destruct (ev_used (p_env p) t) eqn:U; simpl.
  - specialize (IH cnt maxp). destruct (scan p l cnt maxp) as [[a b]|a|]; auto. destruct IH as (t0 & c0 & I & B). eauto.
  - destruct (ev_ok (p_env p) t (p_prio p t)) eqn:K; simpl.
    2:{ exists t, c. split; [auto|]. split; auto. }
    assert (R : forall a, Permutation a (flat (uv p) l ++ rev (ev_vars (p_env p) t) ++ cnt) ->
                Permutation a ((ev_vars (p_env p) t ++ flat (uv p) l) ++ cnt)).
    { intros a ->. rewrite app_assoc. apply Permutation_app_tail. rewrite Permutation_app_comm.
      apply Permutation_app_tail. symmetry. apply Permutation_rev. }
    destruct (Nat.eqb_spec (p_prio p t) 0) as [Z|Z].
    + specialize (IH (rev (ev_vars (p_env p) t) ++ cnt) maxp). destruct (scan p l _ maxp) as [[a b]|a|]; auto. destruct IH as (t0 & c0 & I & B). eauto.
    + destruct (ev_eq (p_env p) t) eqn:Q.
      * specialize (IH (rev (ev_vars (p_env p) t) ++ cnt) (Nat.max maxp (p_prio p t))).
        destruct (scan p l _ _) as [[a b]|a|]; auto. destruct IH as (t0 & c0 & I & B). eauto.
      * exists t, c. split; [auto|]. split; auto.
Qed.
Lemma nodup_snd_filter (f : nat * nat -> bool) own m : (forall t c, In (t, c) m -> own c = t) -> NoDup (keys m) ->
  NoDup (map snd (filter f m)).
Proof.
  intros O N. induction m as [|[t c] m IH]; simpl; [constructor|]. inversion N; subst.
  assert (IH' : NoDup (map snd (filter f m))) by (apply IH; [intros; apply O; now right|auto]).
  destruct (f (t, c)); [|exact IH']. simpl. constructor; [|exact IH']. intros I. apply in_map_iff in I as ([u d] & E & I).
  simpl in E. subst d. apply filter_In in I as [I _]. apply H1. replace t with u; [eapply key_in; eauto|].
  rewrite <- (O u c) by (now right). apply O. now left.
Qed.
Lemma rebuild_spec p own : (forall t c, In (t, c) (p_map p) -> own c = t) -> NoDup (keys (p_map p)) ->
  match processProblem p with
  | Done m => Mir p m /\ m_q m = []
  | Exc _ => exists t c, In (t, c) (p_map p) /\ bad p t
  | Undef => False
  end.
Proof.
  intros O N. unfold processProblem. pose proof (scan_spec p (p_map p) [] 0) as SC.
  destruct (scan p (p_map p) [] 0) as [[cnt maxp]|[cnt x]|]; [|exact SC|exact SC].
  rewrite app_nil_r in SC. split; [|reflexivity]. split; [|exact SC].
  constructor; simpl; auto; try tauto.
  - intros c. rewrite in_map_iff. split.
    + intros ([t d] & E & I). simpl in E. subst d. apply filter_In in I as [I F]. unfold isC in F. simpl in F.
      rewrite !andb_true_iff, !negb_true_iff, Nat.eqb_eq in F. exists t. tauto.
    + intros (t & I & A & B & C). exists (t, c). split; [auto|]. apply filter_In. split; [auto|]. unfold isC. simpl.
      rewrite A, B, C. reflexivity.
  - intros c. rewrite in_map_iff. split.
    + intros ([t d] & E & I). simpl in E. subst d. apply filter_In in I as [I F]. unfold isB in F. simpl in F.
      rewrite !andb_true_iff, !negb_true_iff, Nat.eqb_eq in F. exists t. tauto.
    + intros (t & I & A & B & C). exists (t, c). split; [auto|]. apply filter_In. split; [auto|]. unfold isB. simpl.
      rewrite A, B, C. reflexivity.
  - intros o. rewrite in_map_iff. split.
    + intros ([t d] & E & I). simpl in E. apply filter_In in I as [I F]. unfold isO in F. simpl in F.
      rewrite !andb_true_iff, !negb_true_iff, Nat.eqb_neq in F. exists t, d. rewrite <- E. tauto.
    + intros (t & c & I & A & B & C). exists (t, c). split; [now rewrite C|]. apply filter_In. split; [auto|]. unfold isO. simpl.
      rewrite A. apply Nat.eqb_neq in B. rewrite B. reflexivity.
  - intros v. split.
    + intros I. apply (Permutation_in v SC) in I. apply flat_in in I as (t & c & I & J). unfold uv in J.
      destruct (ev_used (p_env p) t) eqn:U; [destruct J|]. eauto.
    + intros (t & c & I & U & J). apply (Permutation_in v (Permutation_sym SC)), flat_in. exists t, c. split; [auto|].
      unfold uv. now rewrite U.
  - split; [exact N|]. split; [eapply nodup_snd_filter; eauto|]. split; [eapply nodup_snd_filter; eauto|].
    rewrite map_map. simpl. eapply nodup_snd_filter; eauto.
Qed.

(* ---- end of an incremental update ---- *)
Record PI (task : nat -> bool) (own : nat -> nat) (p : problem) : Prop := {
  pi_keys : forall t, In t (p_tr p) <-> In t (keys (p_map p));
  pi_ndt : NoDup (p_tr p);
  pi_nd : NoDup (keys (p_map p));
  pi_own : forall t c, In (t, c) (p_map p) -> own c = t /\ c < p_fresh p;
  pi_task : forall t, In t (p_tr p) -> task t = true }.

Record HIm (task : nat -> bool) (own : nat -> nat) (p : problem) (m : memory) (p0 : problem) (L : list event) : Prop := {
  h_mir : Mir p0 m;
  h_nd0 : NoDup (keys (p_map p0));
  h_own0 : forall t c, In (t, c) (p_map p0) -> own c = t /\ c < p_fresh p0;
  h_fresh : p_fresh p0 <= p_fresh p;
  h_q : queue L = Base.Ok (m_q m);
  h_valid : QueueSpec.valid (keys (p_map p0)) L;
  h_task : forall e, In e L -> task (e_emitter e) = negb (QueueSpec.isSub e);
  h_keys : forall t, In t (keys (p_map p)) <-> In t (QueueSpec.tasksAfter (keys (p_map p0)) L);
  h_keep : forall t c, In (t, c) (p_map p0) -> ~ In (mkE TaskRemoval t) L -> In (t, c) (p_map p);
  h_renew : forall t c, In (mkE TaskRemoval t) L -> In (t, c) (p_map p) -> p_fresh p0 <= c;
  h_w : forall t, In t (keys (p_map p0)) -> ~ In (mkE TaskRemoval t) L -> fst (QueueSpec.changes t L) = false -> p_w p t = p_w p0 t;
  h_a : forall t, In t (keys (p_map p0)) -> ~ In (mkE TaskRemoval t) L -> snd (QueueSpec.changes t L) = false -> p_a p t = p_a p0 t;
  h_prio : forall t, In t (keys (p_map p0)) -> p_prio p t = p_prio p0 t;
  h_env : existsb QueueSpec.isSub L = false -> p_env p = p_env p0;
  h_used : forall t, existsb QueueSpec.isSub L = false -> In (mkE TaskAddition t) L -> ev_used (p_env p) t = false }.

Lemma addr task L : (forall e, In e L -> task (e_emitter e) = negb (QueueSpec.isSub e)) -> QueueSpec.addresses L.
Proof. intros H e e' I I' A B E. apply H in I. apply H in I'. rewrite E, I', A, B in I. discriminate. Qed.

Lemma changes_event t l : (fst (QueueSpec.changes t l) = true -> In (mkE WeightChange t) l) /\
                          (snd (QueueSpec.changes t l) = true -> In (mkE AnisotropicWeightChange t) l).
Proof.
  unfold QueueSpec.changes. induction l as [|e l IH] using rev_ind; [split; discriminate|].
  rewrite fold_left_app. simpl. unfold QueueSpec.changes1 at 1 3.
  destruct IH as [I1 I2]. destruct (Nat.eqb_spec (e_emitter e) t) as [E|D].
  - destruct e as [ty u]; simpl in *; subst u. destruct ty; simpl; split; intros H; try discriminate;
      apply in_app_iff; auto; right; now left.
  - split; intros H; apply in_app_iff; auto.
Qed.

Lemma refresh_ids p ws o : so_c (refresh p ws o) = so_c o /\ so_t (refresh p ws o) = so_t o /\ so_exp (refresh p ws o) = so_exp o.
Proof. unfold refresh. destruct (List.find _ ws); auto. Qed.
Lemma wfind ws c : NoDup (map w_c ws) -> forall w, In w ws -> w_c w = c -> List.find (fun w => w_c w =? c) ws = Some w.
Proof.
  induction ws as [|x ws IH]; simpl; [tauto|]. intros N w I E. inversion N; subst.
  destruct I as [->|I]; [now rewrite Nat.eqb_refl|]. destruct (Nat.eqb_spec (w_c x) (w_c w)) as [E|D]; [|auto].
  exfalso. apply H1. rewrite E. now apply in_map.
Qed.
Lemma refresh_w p l o : (so_w o = p_w p (so_t o) \/ In (ScalarW (so_c o)) l) -> (so_a o = p_a p (so_t o) \/ In (VectorW (so_c o)) l) ->
  refresh p (weightEvents (SolverEventsModel.run l)) o = mkSO (so_c o) (so_t o) (so_exp o) (p_w p (so_t o)) (p_a p (so_t o)).
Proof.
  intros A B. destruct (SolverEventsProofs.weights_in l) as [N W].
  unfold refresh. destruct (List.find (fun w => w_c w =? so_c o) (weightEvents (SolverEventsModel.run l))) as [w|] eqn:F.
  - apply List.find_some in F as [I E]. apply Nat.eqb_eq in E. destruct w as [c f g]; simpl in *. subst c.
    apply W in I as (X & Y & _). f_equal.
    + destruct f; [auto|]. destruct A as [A|A]; [auto|]. apply X in A. discriminate.
    + destruct g; [auto|]. destruct B as [B|B]; [auto|]. apply Y in B. discriminate.
  - assert (NW : forall f g, ~ In (mkW (so_c o) f g) (weightEvents (SolverEventsModel.run l))).
    { intros f g I. pose proof (List.find_none _ _ F _ I) as X. simpl in X. rewrite Nat.eqb_refl in X. discriminate. }
    assert (NS : ~ In (ScalarW (so_c o)) l /\ ~ In (VectorW (so_c o)) l).
    { assert (DS : forall k, {In k l} + {~ In k l}) by (intros k; apply in_dec; repeat decide equality).
      destruct (DS (ScalarW (so_c o))) as [I|I], (DS (VectorW (so_c o))) as [J|J]; auto; exfalso.
      - apply (NW true true), W. tauto.
      - apply (NW true false), W. intuition discriminate.
      - apply (NW false true), W. intuition discriminate. }
    destruct o; simpl in *. f_equal; tauto.
Qed.

Lemma diff_in (old new a r : list nat) : SolverEventsSpec.difference old new a r ->
  forall x, In x (filter (fun c => negb (SolverEventsModel.mem c r)) old ++ a) <-> In x new.
Proof.
  intros (Na & Nr & A & R) x. rewrite in_app_iff, filter_In, negb_true_iff, SolverEventsProofs.mem_nin, A, R.
  destruct (in_dec Nat.eq_dec x old), (in_dec Nat.eq_dec x new); tauto.
Qed.
Lemma nodup_app {A} (a b : list A) : NoDup a -> NoDup b -> (forall x, In x a -> ~ In x b) -> NoDup (a ++ b).
Proof.
  intros Na Nb H. induction a as [|x a IH]; simpl; [auto|]. inversion Na; subst. constructor.
  - rewrite in_app_iff. intros [I|I]; [contradiction|]. apply (H x); [now left|auto].
  - apply IH; [auto|]. intros y Y. apply H. now right.
Qed.
Lemma diff_nodup (old new a r : list nat) : NoDup old -> SolverEventsSpec.difference old new a r ->
  NoDup (filter (fun c => negb (SolverEventsModel.mem c r)) old ++ a).
Proof.
  intros N (Na & Nr & A & R). apply nodup_app; [now apply NoDup_filter|auto|].
  intros x I J. apply filter_In in I as [I _]. apply A in J. tauto.
Qed.

Definition P0of (m : memory) : pb := SolverEventsSpec.mkPb (s_C (m_sol m)) (s_B (m_sol m))
  (map (fun o => mkO (so_c o) (so_t o)) (s_O (m_sol m))) (nodup Nat.eq_dec (m_cnt m)).

Section Finish.
Variable task : nat -> bool.
Variable own : nat -> nat.
Variable p : problem.
Variable m : memory.
Variable p0 : problem.
Variable L : list event.
Hypothesis pi : PI task own p.
Hypothesis hi : HIm task own p m p0 L.
Hypothesis nosub : existsb QueueSpec.isSub L = false.

Lemma wf0 : SolverEventsSpec.wfP (P0of m).
Proof.
  destruct (h_mir _ _ _ _ _ _ hi) as [M _]. destruct (mi_nodup _ _ M) as (_ & A & B & C). simpl in *.
  constructor; simpl; auto.
  - now rewrite map_map.
  - apply NoDup_nodup.
Qed.
Lemma LI0 : LI p own (P0of m) m m [] [].
Proof.
  destruct (h_mir _ _ _ _ _ _ hi) as [M Pm]. destruct M as [Mm MC MB MO MX MV Mq Mn]. simpl in *.
  pose proof (h_env _ _ _ _ _ _ hi nosub) as EE.
  assert (PP : forall t c, In (t, c) (p_map p0) -> p_prio p t = p_prio p0 t).
  { intros t c I. apply (h_prio _ _ _ _ _ _ hi). eapply key_in; eauto. }
  constructor; simpl; auto; try tauto.
  - intros c. rewrite MC. unfold cC. rewrite EE. split; intros (t & I & A & B & C); exists t.
    + rewrite Mm, (PP t c I). auto.
    + rewrite Mm in I. rewrite (PP t c I) in B. auto.
  - intros c. rewrite MB. unfold cB. rewrite EE. split; intros (t & I & A & B & C); exists t.
    + rewrite Mm, (PP t c I). auto.
    + rewrite Mm in I. rewrite (PP t c I) in B. auto.
  - intros o. rewrite in_map_iff. unfold cO. rewrite EE. split.
    + intros (so & <- & I). apply MO in I as (t & c & I & A & B & ->). simpl. rewrite Mm, (PP t c I). auto.
    + intros (I & A & B). rewrite Mm in I. rewrite (PP _ _ I) in B. 
      exists (mkSO (o_c o) (o_data o) (Z.of_nat (m_maxp m) - Z.of_nat (p_prio p0 (o_data o))) (p_w p0 (o_data o)) (p_a p0 (o_data o))).
      split; [destruct o; reflexivity|]. apply MO. exists (o_data o), (o_c o). auto.
  - intros v. rewrite nodup_In. tauto.
  - replace (flat (uv p) (m_map m)) with (flat (uv p0) (m_map m)); [exact Pm|]. unfold flat, uv. now rewrite EE.
  - intros t c I. apply Mm in I. now apply (h_own0 _ _ _ _ _ _ hi).
Qed.

Lemma qfacts : QueueSpec.valid (keys (p_map p0)) (m_q m) /\
  (forall t, In t (QueueSpec.tasksAfter (keys (p_map p0)) (m_q m)) <-> In t (keys (p_map p))) /\
  (forall t, QueueSpec.changes t (m_q m) = QueueSpec.changes t L) /\
  (forall t, In t (keys (p_map p0)) -> (In (mkE TaskRemoval t) (m_q m) <-> In (mkE TaskRemoval t) L)) /\
  (forall e, QueueSpec.isSub e = true -> (In e (m_q m) <-> In e L)).
Proof.
  destruct (QueueProofs.queue_net _ _ (h_valid _ _ _ _ _ _ hi) (addr task L (h_task _ _ _ _ _ _ hi))) as (q & E & A & B & C & D & F).
  rewrite (h_q _ _ _ _ _ _ hi) in E. injection E as <-. split; [auto|]. split; [|auto].
  intros t. rewrite B. symmetry. apply (h_keys _ _ _ _ _ _ hi).
Qed.
Lemma qpresent e : In e (m_q m) -> match e_type e with TaskAddition => In (e_emitter e) (keys (p_map p)) /\ ev_used (p_env p) (e_emitter e) = false
   | WeightChange | AnisotropicWeightChange => In (e_emitter e) (keys (p_map p)) | _ => True end.
Proof.
  intros Ie. pose proof (fun T => QueueProofs.queue_present _ _ _ e (h_valid _ _ _ _ _ _ hi) (addr task L (h_task _ _ _ _ _ _ hi)) (h_q _ _ _ _ _ _ hi) Ie T) as Q.
  rewrite <- (h_keys _ _ _ _ _ _ hi) in Q.
  destruct (e_type e) eqn:T; auto. split; [auto|]. apply (h_used _ _ _ _ _ _ hi); [exact nosub|].
  apply (QueueProofs.queue_from L (m_q m) (h_q _ _ _ _ _ _ hi)) in Ie. destruct e; simpl in *; congruence.
Qed.

Lemma finish m' l : LI p own (P0of m) m m' l (m_q m) -> m_q m' = [] ->
  (forall t, In t (keys (m_map m')) <-> In t (QueueSpec.tasksAfter (keys (p_map p0)) (m_q m))) ->
  Mir p (mkM (m_map m') (m_cnt m') (m_maxp m') (m_q m') (process p (m_maxp m') (SolverEventsModel.run l) (m_sol m'))).
Proof.
  intros LIm Q DK. destruct qfacts as (QV & QT & QC & QR & QS).
  destruct (h_mir _ _ _ _ _ _ hi) as [[Mm MC MB MO MX MV Mq Mn] Pm]. simpl in *.
  destruct LIm as [li_ok0 li_C0 li_B0 li_O0 li_V0 li_cnt0 li_nd0 li_own0 li_src0 li_ws0 li_wa0 li_data0 [SOL MAXP]].
  assert (MAP : forall t c, In (t, c) (m_map m') <-> In (t, c) (p_map p)).
  { assert (A : forall t c, In (t, c) (m_map m') -> In (t, c) (p_map p)).
    { intros t c I. destruct (li_src0 t c I) as [H|[H1 H2]]; [auto|]. apply Mm in H1.
      apply (h_keep _ _ _ _ _ _ hi); [auto|]. rewrite <- QR; [auto|eapply key_in; eauto]. }
    intros t c. split; [auto|]. intros I. assert (K : In t (keys (m_map m'))) by (apply DK, QT; eapply key_in; eauto).
    apply in_key in K as (d & K). replace c with d; [auto|]. eapply nodup_fun; [apply (pi_nd _ _ _ pi)| |exact I]. auto. }
  pose proof (SolverEventsProofs.net_sets (P0of m) l wf0 li_ok0) as (DC & DB & DV & DO).
  simpl in DC, DB, DO.
  assert (SD : SolverEventsSpec.same_data (P0of m) l).
  { intros o o' I J E. simpl in I. apply in_map_iff in I as (so & <- & I). apply MO in I as (t & c & I & _ & _ & ->). simpl in *.
    pose proof (li_data0 _ J) as X. rewrite <- E in X. destruct (h_own0 _ _ _ _ _ _ hi _ _ I) as [Y _]. rewrite X in Y.
    destruct o'; simpl in *; congruence. }
  pose proof (SolverEventsProofs.net_objectives (P0of m) l wf0 li_ok0 SD) as NO. simpl in NO.
  split; [|exact li_cnt0]. constructor; simpl; auto.
  - intros c. rewrite SOL, (diff_in _ _ _ _ DC), li_C0. split; intros (t & I & K); exists t; (split; [apply MAP; exact I|exact K]).
  - intros c. rewrite SOL, (diff_in _ _ _ _ DB), li_B0. split; intros (t & I & K); exists t; (split; [apply MAP; exact I|exact K]).
  - (* objectives *)
    assert (KEPT : forall so, In so (s_O (m_sol m)) -> ~ In (so_c so) (removedO (SolverEventsModel.run l)) ->
      refresh p (weightEvents (SolverEventsModel.run l)) so = newObj p (m_maxp m') (so_c so) (so_t so) /\
      In (so_t so, so_c so) (p_map p) /\ cO p (so_t so)).
    { intros so I NR. 
      assert (J : In (mkO (so_c so) (so_t so)) (SolverEventsSpec.pO (sapply (P0of m) l))).
      { apply NO. right. simpl. split; [|exact NR]. apply in_map_iff. eauto. }
      apply li_O0 in J as [J K]. simpl in J, K. rewrite MAP in J.
      apply MO in I as (t & c & I & U & PR & ->). simpl in *.
      assert (NRem : ~ In (mkE TaskRemoval t) L).
      { intros X. pose proof (h_renew _ _ _ _ _ _ hi _ _ X J). destruct (h_own0 _ _ _ _ _ _ hi _ _ I). lia. }
      pose proof (key_in _ _ _ I) as Ik. split; [|auto]. rewrite refresh_w; simpl.
      - unfold newObj. rewrite MAXP, (h_prio _ _ _ _ _ _ hi t Ik). reflexivity.
      - destruct (fst (QueueSpec.changes t L)) eqn:CH.
        + right. apply (li_ws0 t c); [|exact J]. apply changes_event. now rewrite QC.
        + left. symmetry. apply (h_w _ _ _ _ _ _ hi); auto.
      - destruct (snd (QueueSpec.changes t L)) eqn:CH.
        + right. apply (li_wa0 t c); [|exact J]. apply changes_event. now rewrite QC.
        + left. symmetry. apply (h_a _ _ _ _ _ _ hi); auto. }
    intros o. rewrite SOL, in_app_iff, filter_In, !in_map_iff. split.
    + intros [[(so & <- & I) NR]|(x & <- & I)].
      * rewrite (proj1 (refresh_ids p _ so)), negb_true_iff, SolverEventsProofs.mem_nin in NR.
        destruct (KEPT so I NR) as (-> & J & K). exists (so_t so), (so_c so). destruct K. auto.
      * assert (J : In x (SolverEventsSpec.pO (sapply (P0of m) l))) by (apply NO; auto).
        apply li_O0 in J as [J K]. rewrite MAP in J. exists (o_data x), (o_c x). destruct K. auto.
    + intros (t & c & I & U & PR & ->).
      assert (J : In (mkO c t) (SolverEventsSpec.pO (sapply (P0of m) l))).
      { apply li_O0. simpl. rewrite MAP. unfold cO. auto. }
      apply NO in J as [J|[J NR]].
      * right. exists (mkO c t). auto.
      * left. simpl in *. apply in_map_iff in J as (so & E & J). injection E as Ec Et.
        assert (NR' : ~ In (so_c so) (removedO (SolverEventsModel.run l))) by now rewrite Ec.
        destruct (KEPT so J NR') as (R & _). rewrite Ec, Et in R. split; [exists so; split; [exact R|exact J]|].
        rewrite negb_true_iff, SolverEventsProofs.mem_nin. exact NR.
  - rewrite SOL, MX. now rewrite (h_env _ _ _ _ _ _ hi nosub).
  - intros v. split.
    + intros I. apply (Permutation_in v li_cnt0) in I. apply flat_in in I as (t & c & I & J). unfold uv in J.
      destruct (ev_used (p_env p) t) eqn:U; [destruct J|]. exists t, c. rewrite <- MAP. auto.
    + intros (t & c & I & U & J). apply (Permutation_in v (Permutation_sym li_cnt0)), flat_in. exists t, c. rewrite MAP. split; [auto|].
      unfold uv. now rewrite U.
  - split; [exact li_nd0|]. destruct Mn as (_ & N1 & N2 & N3). rewrite SOL. split; [eapply diff_nodup; eauto|]. split; [eapply diff_nodup; eauto|].
    rewrite map_app. rewrite map_map. simpl.
    rewrite map_map in DO. simpl in DO. pose proof (diff_nodup _ _ _ _ N3 DO) as ND.
    replace (map so_c (filter _ (map _ (s_O (m_sol m))))) with
      (filter (fun c => negb (SolverEventsModel.mem c (removedO (SolverEventsModel.run l)))) (map so_c (s_O (m_sol m)))); [exact ND|].
    clear. induction (s_O (m_sol m)) as [|so x IH]; simpl; [auto|]. rewrite (proj1 (refresh_ids p _ so)).
    destruct (negb _); simpl; [rewrite (proj1 (refresh_ids p _ so))|]; now rewrite IH.
Qed.
End Finish.
