(* Proofs about PbModel: proper histories. *)
From Coq Require Import List Bool Arith Lia.
Import ListNotations.
From Verif Require Import Base QueueModel QueueSpec QueueProps PbModel PbSpec PbProofs.

(* Queues *)
Definition tagged (e : event) : Prop := if isSub e then forall t, e_emitter e <> addrTask t else exists t, e_emitter e = addrTask t.
Definition qinv (ts : list nat) (S : list nat) (q : list event) : Prop := exists l, queue l = Ok q /\ valid S l /\ (forall e, In e l -> tagged e) /\ forall t, In (addrTask t) (tasksAfter S l) <-> In t ts.
Lemma addr_inj : forall t u, addrTask t = addrTask u -> t = u.
Proof. unfold addrTask. lia. Qed.
Lemma tagged_addresses : forall l, (forall e, In e l -> tagged e) -> addresses l.
Proof. intros l T e e' I I' S S' E. pose proof (T e I) as A. pose proof (T e' I') as B. unfold tagged in A, B. rewrite S in A. rewrite S' in B. destruct B as [t B]. apply (A t). congruence. Qed.
Lemma valid_app : forall l S e, valid S (l ++ [e]) <-> valid S l /\ match e_type e with TaskAddition => ~ In (e_emitter e) (tasksAfter S l) | TaskRemoval | WeightChange | AnisotropicWeightChange => In (e_emitter e) (tasksAfter S l) | _ => True end.
Proof. induction l as [|x l IH]; intros S e; [cbn; tauto|]. cbn [app valid]. rewrite IH. unfold tasksAfter. cbn [fold_left]. tauto. Qed.
Lemma addEvents_app : forall l q e, addEvents q (l ++ [e]) = bind (addEvents q l) (fun q' => addEvent q' e).
Proof. induction l as [|x l IH]; intros q e; cbn [addEvents app]. - cbn [bind]. destruct (addEvent q e); reflexivity. - destruct (addEvent q x); cbn [bind]; auto. Qed.
Definition allowed (ts : list nat) (e : event) (ts' : list nat) : Prop :=
  match e_type e with
  | TaskAddition => exists t, e_emitter e = addrTask t /\ ~ In t ts /\ forall u, In u ts' <-> u = t \/ In u ts
  | TaskRemoval => exists t, e_emitter e = addrTask t /\ In t ts /\ forall u, In u ts' <-> In u ts /\ u <> t
  | WeightChange | AnisotropicWeightChange => exists t, e_emitter e = addrTask t /\ In t ts /\ forall u, In u ts' <-> In u ts
  | _ => (forall t, e_emitter e <> addrTask t) /\ forall u, In u ts' <-> In u ts
  end.
Lemma qinv_event : forall ts S q e ts', qinv ts S q -> allowed ts e ts' -> exists q', addEvent q e = Ok q' /\ qinv ts' S q'.
Proof.
  intros ts S q e ts' (l & Q1 & V & T & M) A.
  assert (T1 : tagged e) by (unfold tagged, isSub, allowed in *; destruct (e_type e); first [exact (proj1 A)|destruct A as (t & A & _); exists t; exact A]).
  assert (V1 : valid S (l ++ [e])). { apply valid_app. split; [exact V|]. unfold allowed in A. destruct (e_type e); try exact I; destruct A as (t & -> & A & _); try (apply M; exact A). intros J. apply A. now apply M. }
  assert (T2 : forall x, In x (l ++ [e]) -> tagged x) by (intros x I; apply in_app_or in I as [I|[<-|[]]]; auto).
  destruct (C28_net_effect S (l ++ [e]) V1 (tagged_addresses _ T2)) as (q' & E & _). unfold queue in *. rewrite addEvents_app, Q1 in E. cbn [bind] in E. exists q'. split; [exact E|].
  exists (l ++ [e]). unfold queue. rewrite addEvents_app, Q1. cbn [bind]. split; [exact E|]. split; [exact V1|]. split; [exact T2|].
  intros u. unfold tasksAfter in *. rewrite fold_left_app. cbn [fold_left]. set (F := fold_left tasks1 l S) in *. unfold tasks1, allowed in *. destruct (e_type e); try (destruct A as (t & _ & _ & A); rewrite A; exact (M u)); try (destruct A as [_ A]; rewrite A; exact (M u)).
  - destruct A as (t & -> & _ & A). rewrite A. cbn [In]. rewrite M. split; intros [H|H]; [left; symmetry; now apply addr_inj|auto|left; now subst|auto].
  - destruct A as (t & -> & _ & A). rewrite A, filter_In, M. split; intros [H1 H2]; split; auto.
    + intros ->. rewrite Nat.eqb_refl in H2. discriminate.
    + apply negb_true_iff, Nat.eqb_neq. intros E'. apply H2. apply addr_inj. exact E'.
Qed.
Lemma qinv_eq : forall ts ts' S q, (forall u, In u ts' <-> In u ts) -> qinv ts S q -> qinv ts' S q.
Proof. intros ts ts' S q H (l & A & B & C & D). exists l. split; [exact A|]. split; [exact B|]. split; [exact C|]. intros t. rewrite H. apply D. Qed.
Definition qall (p : pb) : Prop := forall q, In q (queues p) -> exists S, qinv (tr p) S q.
Definition follows (p p' : pb) : Prop := forall i q, nth_error (queues p) i = Some q -> exists q', nth_error (queues p') i = Some q' /\ forall S, qinv (tr p) S q -> qinv (tr p') S q'.
Lemma Forall2_nth : forall A B (R : A -> B -> Prop) l l', Forall2 R l l' -> forall i x, nth_error l i = Some x -> exists y, nth_error l' i = Some y /\ R x y.
Proof. induction 1 as [|a b l l' H F IH]; intros [|i] x E; try discriminate; cbn in *; [injection E as <-; eauto|auto]. Qed.
Lemma Forall2_nth_r : forall A B (R : A -> B -> Prop) l l', Forall2 R l l' -> forall y, In y l' -> exists x, In x l /\ R x y.
Proof. induction 1 as [|a b l l' H F IH]; intros y I; [destruct I|]. destruct I as [<-|I]; [exists a; split; [now left|exact H]|]. destruct (IH y I) as (x & X & Y). exists x. split; [now right|exact Y]. Qed.
Lemma event_follows : forall p e p', qall p -> allowed (tr p) e (tr p') -> Forall2 (fun q q' => addEvent q e = Ok q') (queues p) (queues p') -> qall p' /\ follows p p'.
Proof.
  intros p e p' K A F. split.
  - intros q' I. destruct (Forall2_nth_r _ _ _ _ _ F q' I) as (q & J & E). destruct (K q J) as [S V]. destruct (qinv_event _ _ _ _ _ V A) as (q1 & E1 & V1). exists S. congruence.
  - intros i q N. destruct (Forall2_nth _ _ _ _ _ F i q N) as (q' & N' & E). exists q'. split; [exact N'|]. intros S V. destruct (qinv_event _ _ _ _ _ V A) as (q1 & E1 & V1). congruence.
Qed.
Lemma event_ok : forall p e ts', qall p -> allowed (tr p) e ts' -> exists qs, notifyAll (queues p) e = Ok qs.
Proof. intros p e ts' K A. apply notifyAll_ok. intros q I. destruct (K q I) as [S V]. destruct (qinv_event _ _ _ _ _ V A) as (q' & E & _). eauto. Qed.
Lemma follows_refl : forall p p', queues p' = queues p -> (forall u, In u (tr p') <-> In u (tr p)) -> follows p p'.
Proof. intros p p' E H i q N. exists q. rewrite E. split; [exact N|]. intros S. now apply qinv_eq. Qed.
Lemma follows_trans : forall p q r, follows p q -> follows q r -> follows p r.
Proof. intros p q r A B i x N. destruct (A i x N) as (y & N1 & H1). destruct (B i y N1) as (z & N2 & H2). eauto. Qed.
Lemma qall_eq : forall p p', queues p' = queues p -> (forall u, In u (tr p') <-> In u (tr p)) -> qall p -> qall p'.
Proof. intros p p' E H K q I. rewrite E in I. destruct (K q I) as [S V]. exists S. eapply qinv_eq; eauto. Qed.

(* Maps *)
Lemma lookup_cons : forall t u c m, lookup t ((u, c) :: m) = if u =? t then Some c else lookup t m.
Proof. intros. unfold lookup. cbn [find fst]. now destruct (u =? t). Qed.
Lemma lookup_drop : forall t u m, lookup t (drop u m) = if u =? t then None else lookup t m.
Proof.
  intros t u. induction m as [|[k c] m IH]; [cbn; now destruct (u =? t)|]. cbn [drop filter fst]. rewrite lookup_cons. change (filter (fun e : nat * nat => negb (fst e =? u)) m) with (drop u m).
  destruct (Nat.eqb_spec k u) as [->|N]; cbn [negb].
  - rewrite IH. destruct (u =? t); reflexivity.
  - rewrite lookup_cons, IH. destruct (Nat.eqb_spec k t), (Nat.eqb_spec u t); congruence.
Qed.
Lemma in_without : forall t u l, In t (without u l) <-> In t l /\ t <> u.
Proof. intros t u l. unfold without. rewrite filter_In, negb_true_iff, Nat.eqb_neq. tauto. Qed.
Lemma in_erase : forall t u l, NoDup l -> (In t (eraseFirst u l) <-> In t l /\ t <> u).
Proof.
  intros t u. induction l as [|x l IH]; intros N; [cbn; tauto|]. inversion N as [|? ? N1 N2]; subst. cbn [eraseFirst]. destruct (Nat.eqb_spec x u) as [->|Ne].
  - cbn. split; [intros I; split; [auto|intros ->; contradiction]|]. intros [[<-|I] H]; [contradiction|exact I].
  - cbn. rewrite IH by exact N2. split; [intros [<-|[I H]]; auto|]. intros [[<-|I] H]; auto.
Qed.
Lemma erase_nodup : forall u l, NoDup l -> NoDup (eraseFirst u l).
Proof.
  intros u. induction l as [|x l IH]; intros N; [constructor|]. inversion N as [|? ? N1 N2]; subst. cbn [eraseFirst]. destruct (Nat.eqb_spec x u); [exact N2|]. constructor; [|auto]. intros I. apply in_erase in I as [I _]; auto.
Qed.
Lemma nodup_snoc : forall (l : list nat) t, NoDup l -> ~ In t l -> NoDup (l ++ [t]).
Proof. induction l as [|x l IH]; intros t N H; [constructor; [intros []|constructor]|]. inversion N; subst. cbn. constructor; [|apply IH; auto; intros I; apply H; now right]. intros I. apply in_app_or in I as [I|[<-|[]]]; [contradiction|]. apply H. now left. Qed.

Definition fresh (p : pb) : Prop := forall t c, lookup t (cons p) = Some c -> c < next p.
Record inv (p : pb) : Prop := { iv_c : consistent p; iv_f : fresh p; iv_q : qall p }.
Lemma inv_empty : inv empty.
Proof.
  split; [split| |]; cbn.
  - constructor.
  - tauto.
  - intros t. split; [intros [c H]; discriminate|intros []].
  - intros c. split; [intros []|intros [t H]; discriminate].
  - discriminate.
  - intros t c H. discriminate.
  - intros q [].
Qed.

Lemma baseAdd_good : forall t p, qall p -> ~ In t (tr p) -> exists p', baseAdd t p = Done p' /\ qall p' /\ follows p p'.
Proof.
  intros t p K N. assert (A : allowed (tr p) (mkE TaskAddition (addrTask t)) (tr p ++ [t])).
  { exists t. split; [reflexivity|]. split; [exact N|]. intros u. rewrite in_app_iff. cbn. intuition. }
  pose proof (baseAdd_inv t p _ eq_refl) as B. destruct (baseAdd t p) as [p'|p'|] eqn:E; [|contradiction|].
  - exists p'. split; [reflexivity|]. destruct B as (B1 & _ & _ & _ & _ & _ & _ & B2). eapply event_follows; eauto. now rewrite B1.
  - exfalso. unfold baseAdd, notify in E. cbn [queues] in E. destruct (event_ok p _ _ K A) as [qs Q1]. rewrite Q1 in E. discriminate.
Qed.
Lemma baseRemove_good : forall t p, NoDup (tr p) -> qall p -> exists p', baseRemove t p = Done p' /\ qall p' /\ follows p p'.
Proof.
  intros t p ND K. pose proof (baseRemove_inv t p _ eq_refl) as B. destruct (in_dec Nat.eq_dec t (tr p)) as [I|N].
  - assert (A : allowed (tr p) (mkE TaskRemoval (addrTask t)) (eraseFirst t (tr p))) by (exists t; split; [reflexivity|]; split; [exact I|]; intros u; now apply in_erase).
    destruct (baseRemove t p) as [p'|p'|] eqn:E; [|contradiction|].
    + exists p'. split; [reflexivity|]. destruct B as (B1 & _ & _ & _ & _ & [(_ & _ & _ & B2)|[N _]]); [|contradiction]. eapply event_follows; eauto. now rewrite B1.
    + exfalso. unfold baseRemove, notify in E. rewrite (proj2 (existsb_eqb t (tr p)) I) in E. cbn [queues] in E. destruct (event_ok p _ _ K A) as [qs Q1]. rewrite Q1 in E. discriminate.
  - exists p. unfold baseRemove. destruct (existsb (Nat.eqb t) (tr p)) eqn:X; [apply existsb_eqb in X; contradiction|]. split; [reflexivity|]. split; [exact K|]. now apply follows_refl.
Qed.
Lemma slot_not_task : forall r t, addrSub r <> addrTask t.
Proof. intros [n|i] t; unfold addrSub, addrUser, addrSlot, addrTask; lia. Qed.
Lemma removeSub_good : forall r p, qall p -> exists p', removeSub r p = Done p' /\ qall p' /\ follows p p'.
Proof.
  intros r p K. destruct (removeSub_ok r p) as [p' E]. exists p'. split; [exact E|]. pose proof (removeSub_inv r p _ E) as B. cbn in B. destruct B as (B1 & _ & _ & _ & _ & _ & _ & B2).
  apply (event_follows p (mkE SubstitutionRemoval (addrSub r))); [exact K| |exact B2]. split; [apply slot_not_task|]. intros u. now rewrite B1.
Qed.
Lemma map_forall2 : forall (A B : Type) (R : A -> B -> Prop) g l, (forall x, R x (g x)) -> Forall2 R l (map g l).
Proof. induction l; cbn; auto. Qed.

(* One step of a proper history. *)
Definition isProcess (i : nat) (c : call) : Prop := c = Process i.
Lemma step_inv : forall b p c, inv p -> match c with Add t => ~ In t (tr p) | BaseAdd _ | BaseRemove _ => False | _ => True end ->
  match step b p c with
  | Done p' => inv p' /\ forall i q, c <> Process i -> nth_error (queues p) i = Some q -> exists q', nth_error (queues p') i = Some q' /\ forall S, qinv (tr p) S q -> qinv (tr p') S q'
  | Threw _ => True | Undef => False end.
Proof.
  intros b p c [C F K] H. assert (Fo : forall p', follows p p' -> forall i q, c <> Process i -> nth_error (queues p) i = Some q -> exists q', nth_error (queues p') i = Some q' /\ forall S, qinv (tr p) S q -> qinv (tr p') S q') by (intros p' A i q _ N; now apply A).
  destruct c as [t|t|t|t|n s|r|t|t| |i|]; try contradiction; cbn [step].
  - destruct (baseAdd_good t p K H) as (p1 & E & K1 & F1). pose proof (baseAdd_inv t p _ E) as B. cbn in B. destruct B as (B1 & B2 & B3 & B4 & B5 & B6 & _). unfold add. rewrite E. cbn [andThen]. destruct (b t); [|exact I].
    assert (Nl : lookup t (cons p) = None). { destruct (lookup t (cons p)) as [c|] eqn:L; [|reflexivity]. exfalso. apply H. apply (co_cons p C). eauto. }
    split; [|apply Fo; intros i q N; destruct (F1 i q N) as (q' & A1 & A2); exists q'; split; [exact A1|exact A2]].
    split; [split| |]; cbn [tr tokens cons inputs next].
    + rewrite B1. apply nodup_snoc; [apply C|exact H].
    + intros u. rewrite B1, B2, !in_app_iff, in_without, (co_tokens p C). cbn. destruct (Nat.eq_dec u t) as [->|Ne]; intuition.
    + intros u. rewrite B1, B3, B6, lookup_cons, lookup_drop, in_app_iff. cbn. destruct (Nat.eqb_spec t u) as [->|Ne]; [split; [auto|eauto]|]. rewrite (co_cons p C). intuition.
    + intros x. rewrite B3, B4, B6, in_app_iff. cbn [In]. rewrite (co_inputs p C). split.
      * intros [[u L]|[<-|[]]]; [exists u|exists t]; rewrite lookup_cons, lookup_drop; [|now rewrite Nat.eqb_refl]. destruct (Nat.eqb_spec t u) as [->|]; [congruence|exact L].
      * intros [u L]. rewrite lookup_cons, lookup_drop in L. destruct (t =? u); [injection L as <-; auto|eauto].
    + intros u v x. rewrite B3, B6, !lookup_cons, !lookup_drop. destruct (Nat.eqb_spec t u) as [E1|E1], (Nat.eqb_spec t v) as [E2|E2]; intros L1 L2; [congruence| | |].
      * injection L1 as <-. apply F in L2. lia.
      * injection L2 as <-. apply F in L1. lia.
      * eapply (co_distinct p C); eauto.
    + intros u x. cbn [cons next]. rewrite B3, B6, lookup_cons, lookup_drop. destruct (t =? u); intros L; [injection L as <-; lia|]. apply F in L. lia.
    + exact K1.
  - destruct (baseRemove_good t p (co_nodup p C) K) as (p1 & E & K1 & F1). pose proof (baseRemove_inv t p _ E) as B. cbn in B. destruct B as (B1 & B2 & B3 & B4 & B5 & B6).
    assert (Tk : forall u, In u (tokens p1) <-> In u (tr p) /\ u <> t).
    { intros u. destruct B6 as [(I1 & -> & _)|[N ->]]; [rewrite in_without, (co_tokens p C); tauto|]. rewrite (co_tokens p C). split; [intros J; split; [exact J|intros ->; contradiction]|tauto]. }
    pose proof (remove_inv t p _ eq_refl) as R. destruct (remove t p) as [p'|p'|]; [|exact I|congruence]. destruct R as (p1' & E' & R). assert (p1' = p1) as -> by congruence.
    assert (Main : forall p2, tr p2 = tr p1 -> tokens p2 = tokens p1 -> cons p2 = cons p1 -> inputs p2 = inputs p1 -> next p2 = next p1 -> qall p2 -> forall cc, lookup t (cons p) = Some cc ->
      inv (mkPb (tr p2) (tokens p2) (drop t (cons p2)) (without cc (inputs p2)) (subs p2) (fin p2) (queues p2) (next p2))).
    { intros p2 T1 T2 T3 T4 T5 K2 cc L. split; [split| |]; cbn [tr tokens cons inputs next].
      - rewrite T1, B1. apply erase_nodup. apply C.
      - intros u. rewrite T1, T2, B1, Tk, in_erase by apply C. tauto.
      - intros u. rewrite T1, T3, B1, B2, lookup_drop, in_erase by apply C. rewrite <- (co_cons p C). destruct (Nat.eqb_spec t u) as [->|Ne]; [split; [intros [? ?]; discriminate|intros [_ ?]; contradiction]|]. intuition.
      - intros x. rewrite T3, T4, B2, B3, in_without, (co_inputs p C). split.
        + intros [[u L1] Nx]. exists u. rewrite lookup_drop. destruct (Nat.eqb_spec t u) as [->|]; [congruence|exact L1].
        + intros [u L1]. rewrite lookup_drop in L1. destruct (Nat.eqb_spec t u) as [->|Ne]; [discriminate|]. split; [eauto|]. intros ->. apply Ne. eapply (co_distinct p C); eauto.
      - intros u v x. rewrite T3, B2, !lookup_drop. destruct (t =? u), (t =? v); try discriminate. apply (co_distinct p C).
      - intros u x. cbn [cons next]. rewrite T3, T5, B2, B5, lookup_drop. destruct (t =? u); [discriminate|]. apply F.
      - exact K2. }
    destruct R as [[L ->]|(cc & L & p2 & T1 & T2 & T3 & T4 & T5 & Sx & ->)].
    + split; [|now apply Fo]. assert (Nt : ~ In t (tr p)) by (intros J; apply (co_cons p C) in J as [c J]; congruence).
      destruct B6 as [(I1 & _)|[_ Ep]]; [contradiction|]. subst p1. split; auto.
    + destruct Sx as [[_ ->]|(i & s & _ & _ & Rs)].
      * split; [apply Main; auto|]. apply Fo. exact F1.
      * destruct (removeSub_good (Slot i) p1 K1) as (p3 & E3 & K3 & F3). assert (p3 = p2) as -> by congruence. split; [apply Main; auto|]. apply Fo. exact (follows_trans _ _ _ F1 F3).
  - destruct (addSub_inv n s p) as (p' & E & B1 & B2 & B3 & B4 & B5 & _ & _ & B8). rewrite E.
    assert (FF : qall p' /\ follows p p'). { eapply event_follows with (e := mkE SubstitutionAddition (addrUser n)); [exact K| |rewrite B8; apply map_forall2; reflexivity]. split; [intros t; apply (slot_not_task (User n))|]. intros u. now rewrite B1. }
    split; [|apply Fo; apply FF]. split; [split| |]; rewrite ?B1, ?B2, ?B3, ?B4, ?B5; try apply C; [|apply FF]. intros u x. rewrite B3, B5. apply F.
  - destruct (removeSub_good r p K) as (p' & E & K' & F'). rewrite E. pose proof (removeSub_inv r p _ E) as B. cbn in B. destruct B as (B1 & B2 & B3 & B4 & B5 & _).
    split; [|now apply Fo]. split; [split| |exact K']; rewrite ?B1, ?B2, ?B3, ?B4, ?B5; try apply C. intros u x. rewrite B3, B5. apply F.
  - pose proof (weight_inv WeightChange t p _ (or_introl eq_refl) eq_refl) as B. destruct (weight WeightChange t p) as [p'|p'|]; try contradiction. destruct (existsb (Nat.eqb t) (tokens p)) eqn:X.
    + assert (FF : qall p' /\ follows p p'). { eapply event_follows with (e := mkE WeightChange (addrTask t)); [exact K| |rewrite B; cbn [queues setQueues]; apply map_forall2; reflexivity]. exists t. split; [reflexivity|]. split; [apply existsb_eqb in X; now apply (co_tokens p C)|]. intros u. rewrite B. reflexivity. }
      split; [|apply Fo; apply FF]. subst p'. split; [split| |apply FF]; cbn; try apply C. exact F.
    + subst p'. destruct p; cbn in *. split; [split; auto|]. intros i q _ N. eauto.
  - pose proof (weight_inv AnisotropicWeightChange t p _ (or_intror eq_refl) eq_refl) as B. destruct (weight AnisotropicWeightChange t p) as [p'|p'|]; try contradiction. destruct (existsb (Nat.eqb t) (tokens p)) eqn:X.
    + assert (FF : qall p' /\ follows p p'). { eapply event_follows with (e := mkE AnisotropicWeightChange (addrTask t)); [exact K| |rewrite B; cbn [queues setQueues]; apply map_forall2; reflexivity]. exists t. split; [reflexivity|]. split; [apply existsb_eqb in X; now apply (co_tokens p C)|]. intros u. rewrite B. reflexivity. }
      split; [|apply Fo; apply FF]. subst p'. split; [split| |apply FF]; cbn; try apply C. exact F.
    + subst p'. destruct p; cbn in *. split; [split; auto|]. intros i q _ N. eauto.
  - split.
    + split; [split| |]; cbn; try apply C; [exact F|]. intros q I. cbn in I. apply in_app_or in I as [I|[<-|[]]]; [now apply K|]. exists (map addrTask (tr p)). exists []. split; [reflexivity|]. split; [exact Logic.I|]. split; [intros e []|].
      intros t. change (In (addrTask t) (map addrTask (tr p)) <-> In t (tr p)). rewrite in_map_iff. split; [intros (u & E & J); apply addr_inj in E; now subst|intros J; eauto].
    + intros i q _ N. exists q. cbn. rewrite nth_error_app1 by (apply nth_error_Some; congruence). auto.
  - split.
    + split; [split| |]; cbn; try apply C; [exact F|]. intros q I. cbn in I.
      assert (J : In q (queues p) \/ q = []). { apply in_app_or in I as [I|I]; [left; rewrite <- (firstn_skipn i (queues p)); apply in_or_app; now left|]. destruct (skipn i (queues p)) as [|x r] eqn:E; [destruct I|]. destruct I as [<-|I]; [now right|]. left. rewrite <- (firstn_skipn i (queues p)), E. apply in_or_app. right. now right. }
      destruct J as [J| ->]; [now apply K|]. exists (map addrTask (tr p)). exists []. split; [reflexivity|]. split; [exact Logic.I|]. split; [intros e []|].
      intros t. change (In (addrTask t) (map addrTask (tr p)) <-> In t (tr p)). rewrite in_map_iff. split; [intros (u & E & J); apply addr_inj in E; now subst|intros J; eauto].
    + intros j q Nj N. exists q. cbn. split; [|auto]. assert (Nij : i <> j) by congruence. rewrite <- N. rewrite <- (firstn_skipn i (queues p)) at 3. destruct (Nat.lt_ge_cases j i) as [L|L].
      * assert (j < length (firstn i (queues p))) by (assert (j < length (queues p)) by (apply nth_error_Some; congruence); rewrite firstn_length; lia). now rewrite !nth_error_app1.
      * rewrite !nth_error_app2 by (rewrite firstn_length; lia). assert (j < length (queues p)) by (apply nth_error_Some; congruence). rewrite firstn_length, Nat.min_l by lia.
        destruct (skipn i (queues p)) as [|x r]; [reflexivity|]. destruct (j - i) as [|k] eqn:Ek; [lia|reflexivity].
  - split; [split; [split| |]; cbn; try apply C; [exact F|exact K]|]. intros i q _ N. eauto.
Qed.

Lemma run_proper : forall b cs p, inv p -> proper b p cs -> exists p', run b p cs = Ok p' /\ inv p' /\
  forall i q, (forall c, In c cs -> c <> Process i) -> nth_error (queues p) i = Some q -> exists q', nth_error (queues p') i = Some q' /\ forall S, qinv (tr p) S q -> qinv (tr p') S q'.
Proof.
  intros b. induction cs as [|c cs IH]; intros p V P; [exists p; split; [reflexivity|]; split; [exact V|]; intros i q _ N; eauto|]. cbn [proper] in P. destruct P as [Pc P]. pose proof (step_inv b p c V Pc) as S1. cbn [run].
  destruct (step b p c) as [p1|p1|]; [|contradiction|contradiction]. destruct S1 as [V1 F1]. destruct (IH p1 V1 P) as (p2 & R & V2 & F2). exists p2. split; [exact R|]. split; [exact V2|].
  intros i q H N. destruct (F1 i q (H c (or_introl eq_refl)) N) as (q1 & N1 & Q1). destruct (F2 i q1 (fun c' I => H c' (or_intror I)) N1) as (q2 & N2 & Q2). eauto.
Qed.
Lemma proper_consistent : forall b cs, proper b empty cs -> exists p, run b empty cs = Ok p /\ consistent p.
Proof. intros b cs P. destruct (run_proper b cs empty inv_empty P) as (p & R & V & _). exists p. split; [exact R|apply V]. Qed.
Lemma qinv_end : forall ts S q, qinv ts S q -> valid S q /\ forall t, In (addrTask t) (tasksAfter S q) <-> In t ts.
Proof.
  intros ts S q (l & A & B & C & D). destruct (C28_net_effect S l B (tagged_addresses _ C)) as (q' & E & V & T & _). assert (q' = q) as -> by congruence. split; [exact V|]. intros t. rewrite T. apply D.
Qed.
Lemma proper_pending : forall b cs1 cs2 p1 i, proper b empty (cs1 ++ cs2) -> run b empty cs1 = Ok p1 -> nth_error (queues p1) i = Some [] -> (forall c, In c cs2 -> c <> Process i) ->
  exists p q, run b empty (cs1 ++ cs2) = Ok p /\ nth_error (queues p) i = Some q /\ valid (map addrTask (tr p1)) q /\ forall t, In (addrTask t) (tasksAfter (map addrTask (tr p1)) q) <-> In t (tr p).
Proof.
  intros b cs1 cs2 p1 i P R N H.
  assert (Sp : forall l1 l2 p, proper b p (l1 ++ l2) -> inv p -> proper b p l1 /\ forall p', run b p l1 = Ok p' -> proper b p' l2).
  { induction l1 as [|c l1 IH]; intros l2 p Pr V; [split; [exact I|]; cbn; intros p' E; injection E as <-; exact Pr|]. cbn [app proper] in *. destruct Pr as [Pc Pr]. pose proof (step_inv b p c V Pc) as S1. cbn [run].
    destruct (step b p c) as [q|q|]; [|contradiction|contradiction]. destruct (IH l2 q Pr (proj1 S1)) as [A B]. split; [split; auto|exact B]. }
  destruct (Sp cs1 cs2 empty P inv_empty) as [P1 P2]. specialize (P2 p1 R). destruct (run_proper b cs1 empty inv_empty P1) as (p1' & R1 & V1 & _). assert (p1' = p1) as -> by congruence.
  destruct (run_proper b cs2 p1 V1 P2) as (p & R2 & V2 & F). destruct (F i [] H N) as (q & N2 & Q2).
  assert (RA : forall l1 l2 p, run b p (l1 ++ l2) = bind (run b p l1) (fun p' => run b p' l2)) by (induction l1 as [|c l1 IH]; intros l2 p0; [reflexivity|]; cbn [app run]; destruct (step b p0 c); auto).
  exists p, q. rewrite RA, R. cbn [bind]. split; [exact R2|]. split; [exact N2|]. apply qinv_end. apply Q2. exists []. split; [reflexivity|]. split; [exact Logic.I|]. split; [intros e []|].
  intros t. change (In (addrTask t) (map addrTask (tr p1)) <-> In t (tr p1)). rewrite in_map_iff. split; [intros (u & E & J); apply addr_inj in E; now subst|intros J; eauto].
Qed.

Lemma threw_cases : forall b p c p', step b p c = Threw p' -> (exists t, c = Add t /\ b t = false) \/ (exists t, c = Remove t).
Proof.
  intros b p c p' H. destruct c as [t|t|t|t|n s|r|t|t| |i|]; cbn [step] in H; try discriminate; [| |exfalso ..].
  - left. exists t. split; [reflexivity|]. pose proof (add_inv b t p _ H) as A. apply A.
  - right. eauto.
  - exact (baseAdd_inv t p _ H).
  - exact (baseRemove_inv t p _ H).
  - destruct (addSub_inv n s p) as (q & E & _). congruence.
  - exact (removeSub_inv r p _ H).
  - exact (weight_inv _ t p _ (or_introl eq_refl) H).
  - exact (weight_inv _ t p _ (or_intror eq_refl) H).
Qed.
Lemma add_threw : forall b t p, (b t = true -> forall p', add b t p <> Threw p') /\ (b t = false -> forall p', add b t p <> Done p') /\ forall p', add b t p = Threw p' ->
  tr p' = tr p ++ [t] /\ In t (tokens p') /\ cons p' = cons p /\ inputs p' = inputs p /\ subs p' = subs p /\ queues p' = map (fun q => q ++ [mkE TaskAddition (addrTask t)]) (queues p).
Proof.
  intros b t p. split; [intros B p' H; apply add_inv in H; destruct H; congruence|]. split; [intros B p' H; apply add_inv in H; destruct H; congruence|].
  intros p' H. apply add_inv in H as [_ H]. apply baseAdd_inv in H. destruct H as (A1 & A2 & A3 & A4 & A5 & _ & _ & A8). repeat match goal with |- _ /\ _ => split end; auto.
  - rewrite A2. apply in_or_app. right. now left.
  - clear - A8. revert A8. generalize (queues p'). induction (queues p) as [|q qs IH]; intros qs' F; inversion F; subst; [reflexivity|]. cbn. f_equal; [|auto]. match goal with H : addEvent _ _ = _ |- _ => cbn in H; unfold addEvent in H; cbn in H; congruence end.
Qed.
Lemma remove_threw : forall t p p', remove t p = Threw p' <-> baseRemove t p = Done p' /\ exists c i s, lookup t (cons p) = Some c /\ nth_error (subs p) i = Some s /\ In c (s_cstr s) /\ isSimple s = false /\
  forall k u, k < i -> nth_error (subs p) k = Some u -> ~ In c (s_cstr u).
Proof.
  intros t p p'. split.
  - intros H. pose proof (remove_inv t p _ H) as [E (c & i & s & L & F & Si)]. split; [exact E|]. exists c, i, s. pose proof (substFor_spec c (subs p) 0) as SF. rewrite F in SF. rewrite Nat.sub_0_r in SF. destruct SF as (_ & A & B & D). repeat match goal with |- _ /\ _ => split end; auto.
  - intros [E (c & i & s & L & N & Ic & Si & Fst)]. unfold remove. rewrite E. cbn [andThen]. pose proof (baseRemove_inv t p _ E) as B. cbn in B. destruct B as (_ & Ec & _ & Es & _). rewrite Ec, L. unfold removeSubstitutionFor. rewrite Es.
    pose proof (substFor_spec c (subs p) 0) as SF. destruct (substFor c (subs p) 0) as [[j u]|].
    + rewrite Nat.sub_0_r in SF. destruct SF as (_ & A & B & D). assert (j = i). { destruct (Nat.lt_total j i) as [X|[X|X]]; [exfalso; eapply Fst; eauto|exact X|exfalso; eapply D; eauto]. } subst j. assert (u = s) as -> by congruence. now rewrite Si.
    + exfalso. apply (SF s); [eapply nth_error_In; eauto|exact Ic].
Qed.
Lemma remove_threw_state : forall t p p', remove t p = Threw p' -> tr p' = eraseFirst t (tr p) /\ cons p' = cons p /\ inputs p' = inputs p /\ subs p' = subs p /\
  (In t (tr p) -> ~ In t (tokens p') /\ Forall2 (fun q q' => addEvent q (mkE TaskRemoval (addrTask t)) = Ok q') (queues p) (queues p')).
Proof.
  intros t p p' H. apply remove_threw in H as [E _]. apply baseRemove_inv in E. destruct E as (A & B & C & D & _ & F). repeat match goal with |- _ /\ _ => split end; auto. intros It. destruct F as [(_ & T & _ & Q1)|[N _]]; [|contradiction].
  split; [|exact Q1]. rewrite T, in_without. tauto.
Qed.
Lemma skip_nth : forall A (l : list A) i x, In x (firstn i l ++ skipn (S i) l) -> exists k, k <> i /\ nth_error l k = Some x.
Proof.
  intros A. induction l as [|a l IH]; intros i x I; [destruct i; destruct I|]. destruct i as [|i].
  - cbn in I. apply In_nth_error in I as [k K]. exists (S k). split; [lia|exact K].
  - cbn [firstn app] in I. destruct I as [<-|I]; [exists 0; split; [lia|reflexivity]|]. destruct (IH i x I) as (k & N & K). exists (S k). split; [lia|exact K].
Qed.
Lemma remove_retry : forall t p p' c i, NoDup (tr p) -> remove t p = Threw p' -> lookup t (cons p) = Some c -> (forall k u, k <> i -> nth_error (subs p) k = Some u -> ~ In c (s_cstr u)) ->
  exists p2 p3, removeSub (Slot i) p' = Done p2 /\ remove t p2 = Done p3 /\ tr p3 = eraseFirst t (tr p) /\ lookup t (cons p3) = None /\ ~ In c (inputs p3) /\ subs p3 = firstn i (subs p) ++ skipn (S i) (subs p).
Proof.
  intros t p p' c i ND H L O. destruct (remove_threw_state t p p' H) as (T & C & _ & Sb & _). destruct (removeSub_ok (Slot i) p') as [p2 E2]. exists p2. pose proof (removeSub_inv _ _ _ E2) as B. cbn in B. destruct B as (B1 & B2 & B3 & B4 & B5 & B6 & B7 & _).
  assert (NI : existsb (Nat.eqb t) (tr p2) = false). { apply not_true_is_false. intros X. apply existsb_eqb in X. rewrite B1, T in X. apply in_erase in X as [_ X]; auto. }
  assert (Nf : substFor c (subs p2) 0 = None). { pose proof (substFor_spec c (subs p2) 0) as SF. destruct (substFor c (subs p2) 0) as [[j u]|]; [|reflexivity]. exfalso. destruct SF as (_ & A1 & A2 & _). apply nth_error_In in A1. rewrite B7, Sb in A1. cbn in A1. apply skip_nth in A1 as (k & K1 & K2). eapply O; eauto. }
  eexists. split; [exact E2|]. unfold remove, baseRemove. rewrite NI. cbn [andThen]. rewrite B3, C, L. unfold removeSubstitutionFor. rewrite Nf. cbn [andThen]. split; [reflexivity|]. cbn [tr cons inputs subs].
  split; [congruence|]. split; [rewrite B3, C, lookup_drop, Nat.eqb_refl; reflexivity|]. split; [rewrite in_without; tauto|]. rewrite B7, Sb. reflexivity.
Qed.
Lemma weight_notified : forall b cs p t, proper b empty cs -> run b empty cs = Ok p -> exists p', step b p (Weight t) = Done p' /\
  (In t (tr p) -> queues p' = map (fun q => q ++ [mkE WeightChange (addrTask t)]) (queues p)) /\ (~ In t (tr p) -> p' = p).
Proof.
  intros b cs p t P R. destruct (proper_consistent b cs P) as (p0 & R0 & C). assert (p0 = p) as -> by congruence. cbn [step]. pose proof (weight_inv WeightChange t p _ (or_introl eq_refl) eq_refl) as B.
  destruct (weight WeightChange t p) as [p'|p'|]; try contradiction. exists p'. split; [reflexivity|]. subst p'. split; intros H.
  - apply (co_tokens p C) in H. rewrite (proj2 (existsb_eqb _ _) H). reflexivity.
  - destruct (existsb (Nat.eqb t) (tokens p)) eqn:X; [|now destruct p]. exfalso. apply existsb_eqb in X. now apply H, (co_tokens p C).
Qed.
