(* Proofs about the declarations of a node: the effect of each call. *)
From Coq Require Import List Bool Arith Lia.
Import ListNotations.
From Verif Require Import Base GraphModel CallGraphModel InputsModel InputsSpec NdModel NdSpec.
Local Open Scope nat_scope.

Lemma upd_same {A} (f : nat -> A) i a : upd f i a i = a.
Proof. unfold upd. rewrite Nat.eqb_refl. reflexivity. Qed.
Lemma upd_other {A} (f : nat -> A) i a j : j <> i -> upd f i a j = f j.
Proof. intros H. unfold upd. destruct (Nat.eqb_spec j i); [contradiction|reflexivity]. Qed.

Lemma In_sinsert i j l : In j (sinsert i l) <-> j = i \/ In j l.
Proof.
  induction l as [|k l IH]; cbn [sinsert].
  - cbn. firstorder.
  - destruct (i <? k); [cbn; firstorder|]. destruct (Nat.eqb_spec i k) as [->|].
    + cbn. firstorder.
    + cbn [In]. rewrite IH. firstorder.
Qed.
Lemma smem_In i l : smem i l = true <-> In i l.
Proof.
  unfold smem. rewrite existsb_exists. split.
  - intros [x [I E]]. apply Nat.eqb_eq in E. subst. exact I.
  - intros I. exists i. split; [exact I|apply Nat.eqb_refl].
Qed.
Lemma In_minsert s i l s' is' : In (s', is') (minsert s i l) -> (s' <> s /\ In (s', is') l) \/ (s' = s /\ (is' = [i] \/ exists v, In (s, v) l /\ is' = sinsert i v)) \/ In (s', is') l.
Proof.
  induction l as [|[t v] l IH]; cbn [minsert]; intros H.
  - destruct H as [E|[]]. injection E as <- <-. right. left. split; [reflexivity|left; reflexivity].
  - destruct (Nat.eqb_spec s t) as [->|D].
    + destruct H as [E|H]; [|right; right; right; exact H]. injection E as <- <-. right. left. split; [reflexivity|].
      right. exists v. split; [left; reflexivity|reflexivity].
    + destruct (s <? t).
      * destruct H as [E|H]; [|right; right; exact H]. injection E as <- <-. right. left. split; [reflexivity|left; reflexivity].
      * destruct H as [E|H]; [right; right; left; exact E|].
        destruct (IH H) as [[N I]|[[E [K|[w [I K]]]]|I]].
        -- right. right. right. exact I.
        -- right. left. split; [exact E|left; exact K].
        -- right. left. split; [exact E|right]. exists w. split; [right; exact I|exact K].
        -- right. right. right. exact I.
Qed.

Definition inMap (l : list (nat * list nat)) (s i : nat) : Prop := exists is, In (s, is) l /\ In i is.
Lemma inMap_minsert s i l t j : inMap (minsert s i l) t j <-> (t = s /\ j = i) \/ inMap l t j.
Proof.
  unfold inMap. induction l as [|[t' v] l IH]; cbn [minsert].
  - split.
    + intros [is [[E|[]] K]]. injection E as <- <-. destruct K as [<-|[]]. left. split; reflexivity.
    + intros [[-> ->]|[is [[] _]]]. exists [i]. split; left; reflexivity.
  - destruct (Nat.eqb_spec s t') as [->|D].
    + split.
      * intros [is [[E|I] K]].
        -- injection E as <- <-. apply In_sinsert in K. destruct K as [->|K]; [left; split; reflexivity|].
           right. exists v. split; [left; reflexivity|exact K].
        -- right. exists is. split; [right; exact I|exact K].
      * intros [[-> ->]|[is [[E|I] K]]].
        -- exists (sinsert i v). split; [left; reflexivity|]. apply In_sinsert. left. reflexivity.
        -- injection E as <- <-. exists (sinsert i v). split; [left; reflexivity|]. apply In_sinsert. right. exact K.
        -- exists is. split; [right; exact I|exact K].
    + destruct (s <? t').
      * split.
        -- intros [is [[E|I] K]]; [injection E as <- <-; destruct K as [<-|[]]; left; split; reflexivity|].
           right. exists is. split; [exact I|exact K].
        -- intros [[-> ->]|[is [I K]]]; [exists [i]; split; left; reflexivity|]. exists is. split; [right; exact I|exact K].
      * split.
        -- intros [is [[E|I] K]]; [injection E as <- <-; right; exists v; split; [left; reflexivity|exact K]|].
           destruct (proj1 IH (ex_intro _ is (conj I K))) as [L|[is' [I' K']]]; [left; exact L|].
           right. exists is'. split; [right; exact I'|exact K'].
        -- intros [L|[is [[E|I] K]]].
           ++ destruct (proj2 IH (or_introl L)) as [is' [I' K']]. exists is'. split; [right; exact I'|exact K'].
           ++ injection E as <- <-. exists v. split; [left; reflexivity|exact K].
           ++ destruct (proj2 IH (or_intror (ex_intro _ is (conj I K)))) as [is' [I' K']]. exists is'. split; [right; exact I'|exact K'].
Qed.

(* increasing keys *)
Fixpoint keysFrom (b : nat) (l : list (nat * list nat)) : Prop := match l with [] => True | (t, _) :: l' => b <= t /\ keysFrom (S t) l' end.
Lemma keysFrom_le l : forall b c, c <= b -> keysFrom b l -> keysFrom c l.
Proof. destruct l as [|[t v] l]; intros b c H K; [exact I|]. destruct K as [K1 K2]. split; [lia|exact K2]. Qed.
Lemma minsert_keys s i l : forall b, keysFrom b l -> b <= s -> keysFrom b (minsert s i l).
Proof.
  induction l as [|[t v] l IH]; intros b K B; cbn [minsert].
  - split; [exact B|exact I].
  - destruct K as [K1 K2]. destruct (Nat.eqb_spec s t) as [->|D]; [split; assumption|].
    destruct (Nat.ltb_spec s t).
    + split; [exact B|]. split; [lia|exact K2].
    + split; [exact K1|]. apply IH; [exact K2|lia].
Qed.
Lemma keys_NoDup l : forall b, keysFrom b l -> NoDup (map fst l) /\ forall t, In t (map fst l) -> b <= t.
Proof.
  induction l as [|[t v] l IH]; intros b K; cbn [map fst].
  - split; [constructor|intros t []].
  - destruct K as [K1 K2]. destruct (IH _ K2) as [N M]. split.
    + constructor; [|exact N]. intros J. apply M in J. lia.
    + intros x [<-|J]; [exact K1|]. apply M in J. lia.
Qed.

(* sequences of calls *)
Fixpoint iterN {X} (f : nst -> X -> nresult) (st : nst) (l : list X) : nresult :=
  match l with [] => (st, [], false) | x :: l' => andThen (f st x) (fun st' => iterN f st' l') end.
Lemma iterN_throw {X} (f : nst -> X -> nresult) (F : forall st x st' ev, f st x = (st', ev, true) -> st' = st /\ ev = []) :
  forall l st st' ev, iterN f st l = (st', ev, true) ->
  exists l1 x l2, l = l1 ++ x :: l2 /\ iterN f st l1 = (st', ev, false).
Proof.
  induction l as [|x l IH]; intros st st' ev H; cbn [iterN] in H; [discriminate|].
  destruct (f st x) as [[st1 ev1] [|]] eqn:E; cbn [andThen] in H.
  - injection H as <- <-. destruct (F _ _ _ _ E) as [-> ->]. exists [], x, l. split; reflexivity.
  - destruct (iterN f st1 l) as [[st2 ev2] t] eqn:G. injection H as <- <- ->.
    destruct (IH _ _ _ G) as [l1 [y [l2 [-> K]]]]. exists (x :: l1), y, l2. split; [reflexivity|].
    cbn [iterN]. rewrite E. cbn [andThen]. rewrite K. reflexivity.
Qed.
Lemma iterN_cons_ok {X} (f : nst -> X -> nresult) x l st st' ev : iterN f st (x :: l) = (st', ev, false) ->
  exists st1 ev1 ev2, f st x = (st1, ev1, false) /\ iterN f st1 l = (st', ev2, false) /\ ev = ev1 ++ ev2.
Proof.
  cbn [iterN]. destruct (f st x) as [[st1 ev1] [|]]; cbn [andThen]; [discriminate|].
  destruct (iterN f st1 l) as [[st2 ev2] t] eqn:G. intros H. injection H as <- <- ->. exists st1, ev1, ev2. auto.
Qed.
Lemma registerUpdates_iter n uen l : forall st, registerUpdates n uen st l = iterN (fun st p => registerUpdate n uen st (fst p) (snd p)) st l.
Proof.
  induction l as [|[u f] l IH]; intros st; [reflexivity|]. cbn [registerUpdates iterN fst snd].
  destruct (registerUpdate n uen st u f) as [[st1 ev1] [|]]; cbn [andThen]; [reflexivity|]. rewrite IH. reflexivity.
Qed.
Lemma addOutputDependencies_iter n oen u l : forall st, addOutputDependencies n oen st l u = iterN (fun st o => addOutputDependency n oen st o u) st l.
Proof.
  induction l as [|o l IH]; intros st; [reflexivity|]. cbn [addOutputDependencies iterN].
  destruct (addOutputDependency n oen st o u) as [[st1 ev1] [|]]; cbn [andThen]; [reflexivity|]. rewrite IH. reflexivity.
Qed.
Lemma addInputRef_iter n sen s l : forall st, addInputRef n sen st s l = iterN (fun st i => addInputOne n sen st s i) st l.
Proof.
  induction l as [|o l IH]; intros st; [reflexivity|]. cbn [addInputRef iterN].
  destruct (addInputOne n sen st s o) as [[st1 ev1] [|]]; cbn [andThen]; [reflexivity|]. rewrite IH. reflexivity.
Qed.
Lemma addInputDependencyPtr_iter n u s l : forall st, addInputDependencyPtr n st u s l = iterN (fun st i => addInputDependency1 n st u s i) st l.
Proof.
  induction l as [|o l IH]; intros st; [reflexivity|]. cbn [addInputDependencyPtr iterN].
  destruct (addInputDependency1 n st u s o) as [[st1 ev1] [|]]; cbn [andThen]; [reflexivity|]. rewrite IH. reflexivity.
Qed.

(* ---- throws ---- *)
Lemma registerUpdate_throw n uen st u f st' ev : registerUpdate n uen st u f = (st', ev, true) -> st' = st /\ ev = [].
Proof. unfold registerUpdate. destruct (negb (uen u)); [intros H; injection H as <- <-; auto|]. destruct (nUpd st u); intros H; [injection H as <- <-; auto|discriminate]. Qed.
Lemma addOutputDependency_throw n oen st o u st' ev : addOutputDependency n oen st o u = (st', ev, true) -> st' = st /\ ev = [].
Proof. unfold addOutputDependency. destruct (negb (oen o)); [intros H; injection H as <- <-; auto|]. destruct (dirDep (nDeps st) o); intros H; [injection H as <- <-; auto|discriminate]. Qed.
Lemma nst_eta st : mkNst (nUpd st) (nDeps st) (nInp st) = st.
Proof. destruct st. reflexivity. Qed.
Lemma addInputOne_throw n sen st s i st' ev : addInputOne n sen st s i = (st', ev, true) -> st' = st /\ ev = [].
Proof.
  unfold addInputOne, addOne. destruct (sen s i).
  - destruct (inputs (nInp st) s); intros H; discriminate.
  - intros H. injection H as <- <-. rewrite nst_eta. auto.
Qed.
Lemma addInputDependencyPtr_returns n u s l : forall st, exists st' ev, addInputDependencyPtr n st u s l = (st', ev, false).
Proof.
  induction l as [|i l IH]; intros st; cbn [addInputDependencyPtr].
  - exists st, []. reflexivity.
  - unfold addInputDependency1. cbn [andThen]. match goal with |- context [addInputDependencyPtr n ?x u s l] => destruct (IH x) as [st' [ev ->]] end.
    eexists. eexists. reflexivity.
Qed.
Lemma addInput_one_throw n sh sen st s l st' ev : length l <= 1 -> addInput n sh sen st s l = (st', ev, true) -> st' = st /\ ev = [].
Proof.
  intros L H. unfold addInput in H. destruct l as [|i [|j l]]; cbn [length] in L; [| |lia].
  - cbn in H. discriminate.
  - cbn [addInputRef] in H. destruct (addInputOne n sen st s i) as [[st1 ev1] [|]] eqn:E; cbn [andThen] in H.
    + injection H as <- <-. exact (addInputOne_throw _ _ _ _ _ _ _ E).
    + discriminate.
Qed.

Lemma throws_shorter n st o st' ev : nexec n st o = (st', ev, true) ->
  (oneShot o /\ st' = st /\ ev = []) \/ (exists o', shorter o' o /\ nexec n st o' = (st', ev, false)).
Proof.
  intros H. destruct o as [uen ufs|oen os u|uen ud u|sh uen sen u s is|sh oen sen o s i|sh sen s is]; cbn [nexec] in H.
  - right. rewrite registerUpdates_iter in H.
    destruct (iterN_throw _ (fun st x st' ev E => registerUpdate_throw n uen st (fst x) (snd x) st' ev E) _ _ _ _ H) as [l1 [x [l2 [-> K]]]].
    exists (NRegister uen l1). split; [constructor|]. cbn [nexec]. rewrite registerUpdates_iter. exact K.
  - right. rewrite addOutputDependencies_iter in H.
    destruct (iterN_throw _ (fun st x st' ev E => addOutputDependency_throw n oen st x u st' ev E) _ _ _ _ H) as [l1 [x [l2 [-> K]]]].
    exists (NOutput oen l1 u). split; [constructor|]. cbn [nexec]. rewrite addOutputDependencies_iter. exact K.
  - left. split; [exact I|]. unfold addInternalDependency in H. destruct (negb (uen ud)); [injection H as <- <-; auto|].
    destruct (negb (uen u)); [injection H as <- <-; auto|discriminate].
  - left. split; [exact I|]. unfold addInputDependency in H. destruct (negb (uen u)); [injection H as <- <-; auto|].
    destruct (addInput n sh sen st s (firstn 1 is)) as [[st1 ev1] [|]] eqn:E; cbn [andThen] in H.
    + injection H as <- <-. apply (addInput_one_throw n sh sen st s (firstn 1 is)); [|exact E]. rewrite firstn_length. lia.
    + destruct (addInputDependencyPtr_returns n u s is st1) as [st2 [ev2 K]]. rewrite K in H. discriminate.
  - left. split; [exact I|]. unfold addDirectDependency in H. destruct (checkAddDirectDependency oen st o); [injection H as <- <-; auto|].
    destruct (addInput n sh sen st s [i]) as [[st1 ev1] [|]] eqn:E; cbn [andThen] in H; [|discriminate].
    injection H as <- <-. apply (addInput_one_throw n sh sen st s [i]); [cbn; lia|exact E].
  - right. unfold addInput in H. destruct (addInputRef n sen st s is) as [[st1 ev1] [|]] eqn:E; cbn [andThen] in H; [|discriminate].
    injection H as <- <-. rewrite addInputRef_iter in E.
    destruct (iterN_throw _ (fun st x st' ev E => addInputOne_throw n sen st s x st' ev E) _ _ _ _ E) as [l1 [x [l2 [-> K]]]].
    exists (NAddInput false sen s l1). split; [constructor|]. cbn [nexec]. unfold addInput. rewrite addInputRef_iter, K. cbn [andThen].
    rewrite app_nil_r. reflexivity.
Qed.

Lemma nrun_app n h o : forall st, nrun n st (h ++ [o]) =
  let (st1, ev1) := nrun n st h in match nexec n st1 o with (st2, ev2, _) => (st2, ev1 ++ ev2) end.
Proof.
  induction h as [|x h IH]; intros st; cbn [app nrun].
  - destruct (nexec n st o) as [[st2 ev2] t]. rewrite app_nil_r. reflexivity.
  - destruct (nexec n st x) as [[st1 ev1] t]. rewrite IH. destruct (nrun n st1 h) as [st2 ev2].
    destruct (nexec n st2 o) as [[st3 ev3] t3]. rewrite app_assoc. reflexivity.
Qed.
Theorem made_exists n h : exists st ev a, nrun n nst0 h = (st, ev) /\ made n h st ev a.
Proof.
  induction h as [|o h IH] using rev_ind.
  - exists nst0, [], []. split; [reflexivity|constructor].
  - destruct IH as [st [ev [a [R M]]]]. rewrite nrun_app, R. destruct (nexec n st o) as [[st' ev'] [|]] eqn:E.
    + destruct (throws_shorter n st o st' ev' E) as [[O [-> ->]]|[o' [S1 S2]]].
      * exists st, ev, a. split; [rewrite app_nil_r; reflexivity|]. apply (made_threw_none n h st ev a o M E O).
      * exists st', (ev ++ ev'), (a ++ [o']). split; [reflexivity|]. exact (made_threw_part n h st ev a o o' st' ev' M E S1 S2).
    + exists st', (ev ++ ev'), (a ++ [o]). split; [reflexivity|]. exact (made_returned n h st ev a o st' ev' M E).
Qed.
Lemma made_run n h st ev a : made n h st ev a -> nrun n nst0 h = (st, ev).
Proof.
  induction 1 as [|h st ev a o st' ev' M IH E|h st ev a o o' st' ev' M IH E S1 S2|h st ev a o M IH E O].
  - reflexivity.
  - rewrite nrun_app, IH, E. reflexivity.
  - rewrite nrun_app, IH, E. reflexivity.
  - rewrite nrun_app, IH, E, app_nil_r. reflexivity.
Qed.
