(* Proofs about the declarations of a node: the invariant, when calls throw, and the execution of plans. *)
From Coq Require Import List Bool Arith Lia Relations.
Import ListNotations.
From Verif Require Import Base GraphModel CallGraphModel CallGraphSpec InputsModel InputsSpec NdModel NdSpec NdProofs NdProofs2.
Local Open Scope nat_scope.

Lemma step n st ev a o st' ev' : holdsDecl n st ev a -> nexec n st o = (st', ev', false) -> holdsDecl n st' (ev ++ ev') (a ++ [o]).
Proof.
  intros [Hu Ho Hi Hn Hd Hm Hp Hc Hl Ha Ht] E.
  destruct o as [uen ufs|oen os u|uen ud u|sh uen sen u s is|sh oen sen o s i|sh sen s is]; cbn [nexec] in E.
  - destruct (register_effect _ _ _ _ _ _ E) as [D [P [-> U]]]. constructor.
    + intros u f. rewrite U, Hu, registers_snoc. reflexivity.
    + intros o. rewrite D, flat_snoc. cbn [updatesFor updatesBefore]. rewrite asList_app_nil. apply Ho.
    + intros u. rewrite D, flat_snoc. cbn [updatesFor updatesBefore]. rewrite asList_app_nil. apply Hi.
    + intros u s i. unfold depends. rewrite D, usesInput_snoc. fold (depends st u s i). rewrite Hn. tauto.
    + intros o s i. rewrite D, forwards_snoc, Hd. tauto.
    + rewrite D. exact Hm.
    + intros s i. unfold hasInput. rewrite P, takes_snoc. fold (hasInput st s i). rewrite Hp. cbn. tauto.
    + rewrite filter_app, Hc, flat_snoc. f_equal. cbn [declarations]. clear. induction ufs; cbn; congruence.
    + intros e. rewrite filter_app. replace (filter isInput (map (fun p => EUpdate n (fst p) (snd p)) ufs)) with (@nil logev) by (clear; induction ufs; auto).
      rewrite app_nil_r. unfold hasInput. rewrite P. apply Hl.
    + unfold allNew. rewrite filter_app. replace (filter isInput (map (fun p => EUpdate n (fst p) (snd p)) ufs)) with (@nil logev) by (clear; induction ufs; auto).
      rewrite app_nil_r. exact Ha.
    + intros u l F. rewrite D in F. exact (Ht u l F).
  - destruct (output_effect _ _ _ _ _ _ _ E) as [A1 [A2 [A3 [A4 [A5 [-> [A6 A7]]]]]]]. constructor.
    + intros v f. rewrite A1, registers_snoc, Hu. tauto.
    + intros o. rewrite flat_snoc. cbn [updatesFor]. apply A7, Ho.
    + intros v. rewrite A3, flat_snoc. cbn [updatesFor updatesBefore]. rewrite asList_app_nil. apply Hi.
    + intros v s i. unfold depends. rewrite A4, usesInput_snoc. fold (depends st v s i). rewrite Hn. tauto.
    + intros o s i. rewrite A5, forwards_snoc, Hd. tauto.
    + intros o. rewrite A5. destruct (in_dec Nat.eq_dec o os) as [J|J].
      * left. exact (A6 o J).
      * destruct (Hm o) as [K|K]; [left; exact K|right]. rewrite Ho in K. rewrite (A7 o _ (Ho o)).
        replace (filter (Nat.eqb o) os) with (@nil nat); [cbn [map]; rewrite asList_app_nil; exact K|].
        symmetry. clear -J. induction os as [|x os IH]; [reflexivity|]. cbn [filter]. destruct (Nat.eqb_spec o x) as [->|Ne]; [destruct J; left; reflexivity|].
        apply IH. intros K. apply J. right. exact K.
    + intros s i. unfold hasInput. rewrite A2, takes_snoc. fold (hasInput st s i). rewrite Hp. cbn. tauto.
    + rewrite filter_app, Hc, flat_snoc. f_equal. cbn [declarations]. clear. induction os; cbn; congruence.
    + intros e. rewrite filter_app. replace (filter isInput (map (fun o => EOutputDep n o u) os)) with (@nil logev) by (clear; induction os; auto).
      rewrite app_nil_r. unfold hasInput. rewrite A2. apply Hl.
    + unfold allNew. rewrite filter_app. replace (filter isInput (map (fun o => EOutputDep n o u) os)) with (@nil logev) by (clear; induction os; auto).
      rewrite app_nil_r. exact Ha.
    + intros v l F. rewrite A4 in F. exact (Ht v l F).
  - unfold addInternalDependency in E. destruct (negb (uen ud)); [discriminate|]. destruct (negb (uen u)); [discriminate|]. injection E as <- <-.
    constructor; cbn [withDeps nUpd nDeps nInp outDep intDep inDep dirDep].
    + intros v f. rewrite registers_snoc, Hu. tauto.
    + intros o. rewrite flat_snoc. cbn [updatesFor updatesBefore]. rewrite asList_app_nil. apply Ho.
    + intros v. rewrite (pushAt_asList _ ud u _ v (Hi v)), flat_snoc. cbn [updatesBefore]. rewrite (Nat.eqb_sym ud v). reflexivity.
    + intros v s i. rewrite usesInput_snoc. unfold depends. cbn [withDeps nDeps inDep]. fold (depends st v s i). rewrite Hn. tauto.
    + intros o s i. rewrite forwards_snoc, Hd. tauto.
    + exact Hm.
    + intros s i. rewrite takes_snoc. unfold hasInput. cbn [withDeps nInp]. fold (hasInput st s i). rewrite Hp. cbn. tauto.
    + rewrite filter_app, Hc, flat_snoc. reflexivity.
    + intros e. rewrite filter_app. cbn [filter isInput]. rewrite app_nil_r. apply Hl.
    + unfold allNew. rewrite filter_app. cbn [filter isInput]. rewrite app_nil_r. exact Ha.
    + exact Ht.
  - unfold addInputDependency in E. destruct (negb (uen u)); [discriminate|].
    destruct (addInput n sh sen st s (firstn 1 is)) as [[st1 ev1] t] eqn:E1. destruct t; cbn [andThen] in E; [discriminate|].
    destruct (addInputDependencyPtr n st1 u s is) as [[st2 ev2] t2] eqn:E2. injection E as <- <- ->.
    destruct (addInput_effect _ _ _ _ _ _ _ ev _ E1) as [B1 [B2 [B3 [B4 B5]]]].
    destruct (inputDeps_effect _ _ _ _ _ _ _ E2) as [A1 [A2 [A3 [A4 [A5 [-> [A6 A7]]]]]]].
    destruct (B5 Hl Ha) as [B6 B7]. constructor.
    + intros v f. rewrite A1, B1, registers_snoc, Hu. tauto.
    + intros o. rewrite A4, B2, flat_snoc. cbn [updatesFor updatesBefore]. rewrite asList_app_nil. apply Ho.
    + intros v. rewrite A3, B2, flat_snoc. cbn [updatesFor updatesBefore]. rewrite asList_app_nil. apply Hi.
    + intros v t i. rewrite A7, usesInput_snoc. unfold depends at 1. rewrite B2. fold (depends st v t i). rewrite Hn. intuition congruence.
    + intros o t i. rewrite A5, B2, forwards_snoc, Hd. tauto.
    + intros o. rewrite A5, A4, B2. apply Hm.
    + intros t i. unfold hasInput. rewrite A2. fold (hasInput st1 t i). rewrite B4, takes_snoc, Hp. cbn [takes1]. intuition congruence.
    + rewrite !filter_app, B3, Hc, flat_snoc. cbn [app]. f_equal. cbn [declarations]. clear. induction is; cbn; congruence.
    + intros e. rewrite app_assoc, filter_app. replace (filter isInput (map (fun i => EInputDep n u s i) is)) with (@nil logev) by (clear; induction is; auto).
      rewrite app_nil_r. unfold hasInput. rewrite A2. apply B6.
    + unfold allNew. rewrite app_assoc, filter_app. replace (filter isInput (map (fun i => EInputDep n u s i) is)) with (@nil logev) by (clear; induction is; auto).
      rewrite app_nil_r. exact B7.
    + apply A6. intros v l F. rewrite B2 in F. exact (Ht v l F).
  - unfold addDirectDependency in E. destruct (checkAddDirectDependency oen st o) eqn:CK; [discriminate|].
    unfold checkAddDirectDependency in CK. destruct (negb (oen o)); [discriminate|]. destruct (dirDep (nDeps st) o) eqn:Do; [discriminate|].
    destruct (outDep (nDeps st) o) eqn:Oo; [discriminate|].
    destruct (addInput n sh sen st s [i]) as [[st1 ev1] t] eqn:E1. destruct t; cbn [andThen] in E; [discriminate|]. injection E as <- <-.
    destruct (addInput_effect _ _ _ _ _ _ _ ev _ E1) as [B1 [B2 [B3 [B4 B5]]]]. destruct (B5 Hl Ha) as [B6 B7].
    constructor; cbn [withDeps nUpd nDeps nInp outDep intDep inDep dirDep].
    + intros v f. rewrite B1, registers_snoc, Hu. tauto.
    + intros o'. rewrite B2, flat_snoc. cbn [updatesFor updatesBefore]. rewrite asList_app_nil. apply Ho.
    + intros v. rewrite B2, flat_snoc. cbn [updatesFor updatesBefore]. rewrite asList_app_nil. apply Hi.
    + intros v t j. rewrite usesInput_snoc. unfold depends. cbn [withDeps nDeps inDep]. rewrite B2. fold (depends st v t j). rewrite Hn. tauto.
    + intros o' t j. rewrite B2, forwards_snoc. destruct (Nat.eq_dec o' o) as [->|Ne].
      * rewrite upd_same. split.
        -- intros F. injection F as <- <-. right. auto.
        -- intros [K|[_ [-> ->]]]; [|reflexivity]. apply Hd in K. congruence.
      * rewrite upd_other by exact Ne. rewrite Hd. intuition congruence.
    + intros o'. rewrite B2. destruct (Nat.eq_dec o' o) as [->|Ne]; [right; exact Oo|]. rewrite upd_other by exact Ne. apply Hm.
    + intros t j. rewrite takes_snoc. unfold hasInput. cbn [withDeps nInp]. fold (hasInput st1 t j). rewrite B4, Hp. cbn [takes1 In]. intuition congruence.
    + rewrite !filter_app, B3, Hc, flat_snoc. reflexivity.
    + intros e. rewrite app_assoc, filter_app. cbn [filter isInput]. rewrite app_nil_r. apply B6.
    + unfold allNew. rewrite app_assoc, filter_app. cbn [filter isInput]. rewrite app_nil_r. exact B7.
    + intros v l F. cbn [withDeps nDeps inDep] in F. rewrite B2 in F. exact (Ht v l F).
  - destruct (addInput_effect _ _ _ _ _ _ _ ev _ E) as [B1 [B2 [B3 [B4 B5]]]]. destruct (B5 Hl Ha) as [B6 B7]. constructor.
    + intros v f. rewrite B1, registers_snoc, Hu. tauto.
    + intros o. rewrite B2, flat_snoc. cbn [updatesFor updatesBefore]. rewrite asList_app_nil. apply Ho.
    + intros v. rewrite B2, flat_snoc. cbn [updatesFor updatesBefore]. rewrite asList_app_nil. apply Hi.
    + intros v t i. unfold depends. rewrite B2, usesInput_snoc. fold (depends st v t i). rewrite Hn. tauto.
    + intros o t i. rewrite B2, forwards_snoc, Hd. tauto.
    + intros o. rewrite B2. apply Hm.
    + intros t i. rewrite B4, takes_snoc, Hp. cbn [takes1]. intuition congruence.
    + rewrite filter_app, B3, Hc, flat_snoc. reflexivity.
    + exact B6.
    + exact B7.
    + intros v l F. rewrite B2 in F. exact (Ht v l F).
Qed.
Lemma holds0 n : holdsDecl n nst0 [] [].
Proof.
  constructor; cbn [nst0 nUpd nDeps nInp outDep intDep inDep dirDep].
  - intros u f. split; [discriminate|]. intros [x [y [[] _]]].
  - reflexivity.
  - reflexivity.
  - intros u s i. split; [intros [l [is [F _]]]; discriminate|]. intros [x [y [z [w [[] _]]]]].
  - intros o s i. split; [discriminate|]. intros [x [y [z []]]].
  - left. reflexivity.
  - intros s i. split; [intros [l [F _]]; discriminate|]. intros [[x [y [z [[] _]]]]|[[x [y [z [w [v []]]]]]|[x [y [z [w []]]]]]].
  - reflexivity.
  - intros e. split; [intros []|]. intros [s [i [_ [l [F _]]]]]. discriminate.
  - constructor.
  - intros u l F. discriminate.
Qed.
Theorem made_holds n h st ev a : made n h st ev a -> holdsDecl n st ev a.
Proof.
  induction 1 as [|h st ev a o st' ev' M IH E|h st ev a o o' st' ev' M IH E S1 S2|h st ev a o M IH E O].
  - apply holds0.
  - apply (step n st ev a o st' ev' IH E).
  - apply (step n st ev a o' st' ev' IH S2).
  - exact IH.
Qed.

(* ---- what is kept alive ---- *)
Lemma inputRef_store n sen s l : forall st st' ev, addInputRef n sen st s l = (st', ev, false) -> store (nInp st') = store (nInp st).
Proof.
  induction l as [|i l IH]; intros st st' ev H; [cbn in H; injection H as <- <-; reflexivity|].
  rewrite addInputRef_iter in H. destruct (iterN_cons_ok _ _ _ _ _ _ H) as [st1 [ev1 [ev2 [E [G _]]]]]. rewrite <- addInputRef_iter in G.
  rewrite (IH _ _ _ G). unfold addInputOne, addOne in E. destruct (sen s i); [|discriminate]. destruct (inputs (nInp st) s); injection E as <- _; reflexivity.
Qed.
Lemma addInput_store n sh sen s l st st' ev : addInput n sh sen st s l = (st', ev, false) -> forall t, alive st' t <-> alive st t \/ (sh = true /\ s = t).
Proof.
  unfold addInput. destruct (addInputRef n sen st s l) as [[st1 ev1] b] eqn:E. destruct b; cbn [andThen]; [discriminate|].
  pose proof (inputRef_store _ _ _ _ _ _ _ E) as K. intros H t. unfold alive. rewrite <- K. destruct sh; injection H as <- <-; cbn [nInp store].
  - destruct (Nat.eq_dec t s) as [->|Ne]; [rewrite upd_same; tauto|]. rewrite upd_other by exact Ne. intuition congruence.
  - intuition congruence.
Qed.
Lemma alive_step n st o st' ev : nexec n st o = (st', ev, false) -> forall t, alive st' t <-> alive st t \/ shares o t.
Proof.
  destruct o as [uen ufs|oen os u|uen ud u|sh uen sen u s is|sh oen sen o s i|sh sen s is]; cbn [nexec shares]; intros E t.
  - destruct (register_effect _ _ _ _ _ _ E) as [D [P _]]. unfold alive. rewrite P. tauto.
  - destruct (output_effect _ _ _ _ _ _ _ E) as [_ [P _]]. unfold alive. rewrite P. tauto.
  - unfold addInternalDependency in E. destruct (negb (uen ud)); [discriminate|]. destruct (negb (uen u)); [discriminate|]. injection E as <- <-. unfold alive. cbn. tauto.
  - unfold addInputDependency in E. destruct (negb (uen u)); [discriminate|].
    destruct (addInput n sh sen st s (firstn 1 is)) as [[st1 ev1] b] eqn:E1. destruct b; cbn [andThen] in E; [discriminate|].
    destruct (addInputDependencyPtr n st1 u s is) as [[st2 ev2] t2] eqn:E2. injection E as <- <- ->.
    destruct (inputDeps_effect _ _ _ _ _ _ _ E2) as [_ [P _]]. unfold alive at 1. rewrite P. apply (addInput_store _ _ _ _ _ _ _ _ E1).
  - unfold addDirectDependency in E. destruct (checkAddDirectDependency oen st o); [discriminate|].
    destruct (addInput n sh sen st s [i]) as [[st1 ev1] b] eqn:E1. destruct b; cbn [andThen] in E; [discriminate|]. injection E as <- <-.
    unfold alive at 1. cbn [withDeps nInp]. apply (addInput_store _ _ _ _ _ _ _ _ E1).
  - apply (addInput_store _ _ _ _ _ _ _ _ E).
Qed.
Lemma made_alive n h st ev a : made n h st ev a -> forall t, alive st t <-> exists c, In c a /\ shares c t.
Proof.
  assert (SN : forall a c t, (exists c', In c' (a ++ [c]) /\ shares c' t) <-> (exists c', In c' a /\ shares c' t) \/ shares c t).
  { intros a0 c t. split.
    - intros [c' [J K]]. apply In_snoc in J. destruct J as [J| ->]; [left; exists c'; auto|right; exact K].
    - intros [[c' [J K]]|K]; [exists c'|exists c]; (split; [apply In_snoc; auto|exact K]). }
  induction 1 as [|h st ev a o st' ev' M IH E|h st ev a o o' st' ev' M IH E S1 S2|h st ev a o M IH E O]; intros t.
  - split; [discriminate|intros [c [[] _]]].
  - rewrite SN, <- IH. apply (alive_step _ _ _ _ _ E).
  - rewrite SN, <- IH. apply (alive_step _ _ _ _ _ S2).
  - apply IH.
Qed.

(* ---- when calls throw ---- *)
Lemma iter_throws_iff {X} (f : nst -> X -> nresult) (bad : nst -> X -> Prop)
  (B : forall st x, snd (f st x) = true <-> bad st x) l : forall st,
  snd (iterN f st l) = true <-> exists l1 x l2 st1 ev1, l = l1 ++ x :: l2 /\ iterN f st l1 = (st1, ev1, false) /\ bad st1 x.
Proof.
  induction l as [|x l IH]; intros st.
  - cbn. split; [discriminate|]. intros [l1 [x [l2 [st1 [ev1 [E _]]]]]]. destruct l1; discriminate.
  - cbn [iterN]. specialize (B st x). destruct (f st x) as [[st1 ev1] t] eqn:E. cbn [snd] in B. destruct t; cbn [andThen].
    + cbn [snd]. split; [|reflexivity]. intros _. exists [], x, l, st, []. split; [reflexivity|]. split; [reflexivity|]. apply B. reflexivity.
    + specialize (IH st1). destruct (iterN f st1 l) as [[st2 ev2] t2] eqn:G. cbn [snd] in *. rewrite IH. split.
      * intros [l1 [y [l2 [st3 [ev3 [-> [K1 K2]]]]]]]. exists (x :: l1), y, l2, st3, (ev1 ++ ev3). split; [reflexivity|].
        split; [|exact K2]. cbn [iterN]. rewrite E. cbn [andThen]. rewrite K1. reflexivity.
      * intros [l1 [y [l2 [st3 [ev3 [F [K1 K2]]]]]]]. destruct l1 as [|z l1].
        -- cbn in F. injection F as <- <-. cbn in K1. injection K1 as <- <-. apply B in K2. discriminate.
        -- cbn in F. injection F as <- ->. cbn [iterN] in K1. rewrite E in K1. cbn [andThen] in K1.
           destruct (iterN f st1 l1) as [[st4 ev4] t4] eqn:G4. injection K1 as <- <- ->. exists l1, y, l2, st4, ev4. auto.
Qed.
Lemma hasOutDep_spec a o : flat_map (updatesFor o) a <> [] <-> hasOutDep a o.
Proof.
  unfold hasOutDep. split.
  - intros H. destruct (flat_map (updatesFor o) a) as [|v l] eqn:E; [contradiction|].
    assert (J : In v (flat_map (updatesFor o) a)) by (rewrite E; left; reflexivity). apply in_flat_map in J. destruct J as [c [J K]].
    destruct c as [|oen os u| | | |]; try destruct K. cbn in K. apply in_map_iff in K. destruct K as [x [_ K]]. apply filter_In in K.
    destruct K as [K1 K2]. apply Nat.eqb_eq in K2. subst x. exists oen, os, u. auto.
  - intros [oen [os [u [J K]]]] E. assert (V : In u (flat_map (updatesFor o) a)).
    { apply in_flat_map. eexists. split; [exact J|]. cbn. apply in_map_iff. exists o. split; [reflexivity|]. apply filter_In. split; [exact K|apply Nat.eqb_refl]. }
    rewrite E in V. destruct V.
Qed.
Lemma addInput1_throws n sh sen st s i : snd (addInput n sh sen st s [i]) = true <-> sen s i = false.
Proof.
  unfold addInput. cbn [addInputRef]. unfold addInputOne, addOne. destruct (sen s i).
  - destruct (inputs (nInp st) s); destruct sh; cbn; split; discriminate.
  - cbn. tauto.
Qed.
Theorem throws_spec n h st ev a o : made n h st ev a ->
  (snd (nexec n st o) = true <->
   match o with
   | NRegister uen ufs => exists l1 u f l2, ufs = l1 ++ (u, f) :: l2 /\ (uen u = false \/ hasUpd a u \/ In u (map fst l1))
   | NOutput oen os u => exists o, In o os /\ (oen o = false \/ hasDirect a o)
   | NInternal uen ud u => uen ud = false \/ uen u = false
   | NInput sh uen sen u s is => uen u = false \/ exists i is', is = i :: is' /\ sen s i = false
   | NDirect sh oen sen o s i => oen o = false \/ hasDirect a o \/ hasOutDep a o \/ sen s i = false
   | NAddInput sh sen s is => exists i, In i is /\ sen s i = false
   end).
Proof.
  intros M. pose proof (made_holds _ _ _ _ _ M) as HD. destruct o as [uen ufs|oen os u|uen ud u|sh uen sen u s is|sh oen sen o s i|sh sen s is]; cbn [nexec].
  - assert (BB : forall st0 p, snd (registerUpdate n uen st0 (fst p) (snd p)) = true <-> uen (fst p) = false \/ nUpd st0 (fst p) <> None).
    { intros st0 p. unfold registerUpdate. destruct (uen (fst p)); cbn [negb].
      - destruct (nUpd st0 (fst p)); cbn; split; [right; discriminate|reflexivity|discriminate|intros [E|E]; [discriminate|contradiction]].
      - cbn. tauto. }
    rewrite registerUpdates_iter, (iter_throws_iff _ _ BB).
    split.
      * intros [l1 [[u f] [l2 [st1 [ev1 [-> [K1 K2]]]]]]]. exists l1, u, f, l2. split; [reflexivity|]. cbn [fst] in K2.
        destruct K2 as [K2|K2]; [left; exact K2|right]. rewrite <- registerUpdates_iter in K1.
        destruct (register_effect _ _ _ _ _ _ K1) as [_ [_ [_ U]]]. destruct (nUpd st1 u) as [g|] eqn:F; [|contradiction].
        apply U in F. destruct F as [F|F].
        -- left. exists g. apply (hd_upd _ _ _ _ HD). exact F.
        -- right. apply in_map_iff. exists (u, g). auto.
      * intros [l1 [u [f [l2 [-> K]]]]].
        destruct (iterN (fun st p => registerUpdate n uen st (fst p) (snd p)) st l1) as [[st1 ev1] t] eqn:G. destruct t.
        -- assert (G1 : snd (iterN (fun st p => registerUpdate n uen st (fst p) (snd p)) st l1) = true) by (rewrite G; reflexivity).
           destruct (proj1 (iter_throws_iff _ _ BB l1 st) G1)
             as [m1 [y [m2 [st2 [ev2 [-> [J1 J2]]]]]]].
           exists m1, y, (m2 ++ (u, f) :: l2), st2, ev2. split; [rewrite <- app_assoc; reflexivity|]. split; [exact J1|exact J2].
        -- exists l1, (u, f), l2, st1, ev1. split; [reflexivity|]. split; [exact G|]. cbn [fst].
           destruct K as [K|K]; [left; exact K|right]. rewrite <- registerUpdates_iter in G.
           destruct (register_effect _ _ _ _ _ _ G) as [_ [_ [_ U]]]. destruct K as [[g K]|K].
           ++ apply (hd_upd _ _ _ _ HD) in K. rewrite (proj2 (U u g) (or_introl K)). discriminate.
           ++ apply in_map_iff in K. destruct K as [[u' g] [<- K]]. cbn [fst]. rewrite (proj2 (U u' g) (or_intror K)). discriminate.
  - assert (BB : forall st0 x, snd (addOutputDependency n oen st0 x u) = true <-> oen x = false \/ dirDep (nDeps st0) x <> None).
    { intros st0 x. unfold addOutputDependency. destruct (oen x); cbn [negb].
      - destruct (dirDep (nDeps st0) x); cbn; split; [right; discriminate|reflexivity|discriminate|intros [E|E]; [discriminate|contradiction]].
      - cbn. tauto. }
    assert (DIR : forall x, dirDep (nDeps st) x <> None <-> hasDirect a x).
    { intros x. unfold hasDirect. split.
      - intros K. destruct (dirDep (nDeps st) x) as [[s i]|] eqn:F; [|contradiction]. exists s, i. apply (hd_dir _ _ _ _ HD). exact F.
      - intros [s [i K]]. apply (hd_dir _ _ _ _ HD) in K. rewrite K. discriminate. }
    rewrite addOutputDependencies_iter, (iter_throws_iff _ _ BB). split.
    + intros [l1 [x [l2 [st1 [ev1 [-> [K1 K2]]]]]]]. exists x. split; [apply in_or_app; right; left; reflexivity|].
      rewrite <- addOutputDependencies_iter in K1. destruct (output_effect _ _ _ _ _ _ _ K1) as [_ [_ [_ [_ [A5 _]]]]]. rewrite A5, DIR in K2. exact K2.
    + intros [x [J K]]. rewrite <- (iter_throws_iff _ _ BB).
      destruct (iterN (fun st o => addOutputDependency n oen st o u) st os) as [[st1 ev1] t] eqn:G. destruct t; [reflexivity|]. cbn [snd].
      rewrite <- addOutputDependencies_iter in G. exfalso. destruct K as [K|K].
      * rewrite addOutputDependencies_iter in G. clear -G J K. revert st st1 ev1 G. induction os as [|y os IH]; [destruct J|]. intros st st1 ev1 G.
        destruct (iterN_cons_ok _ _ _ _ _ _ G) as [st2 [ev2 [ev3 [E [G' _]]]]]. destruct J as [->|J]; [|exact (IH J _ _ _ G')].
        unfold addOutputDependency in E. rewrite K in E. discriminate.
      * destruct (output_effect _ _ _ _ _ _ _ G) as [_ [_ [_ [_ [_ [_ [A6 _]]]]]]]. apply DIR in K. exact (K (A6 x J)).
  - unfold addInternalDependency. destruct (uen ud); cbn [negb]; [|cbn; tauto]. destruct (uen u); cbn; [|tauto].
    split; [discriminate|]. intros [K|K]; discriminate.
  - unfold addInputDependency. destruct (uen u); cbn [negb]; [|cbn; tauto].
    destruct is as [|i is].
    + cbn [firstn]. unfold addInput. cbn [addInputRef andThen]. cbn. split; [discriminate|]. intros [K|[i [is' [K _]]]]; discriminate.
    + cbn [firstn]. pose proof (addInput1_throws n sh sen st s i) as T. destruct (addInput n sh sen st s [i]) as [[st1 ev1] t]. cbn [snd] in T. destruct t; cbn [andThen].
      * cbn [snd]. split; [|reflexivity]. intros _. right. exists i, is. split; [reflexivity|]. apply T. reflexivity.
      * destruct (addInputDependencyPtr_returns n u s (i :: is) st1) as [st2 [ev2 ->]]. cbn [snd]. split; [discriminate|].
        intros [K|[i' [is' [K1 K2]]]]; [discriminate|]. injection K1 as <- <-. apply T in K2. discriminate.
  - unfold addDirectDependency.
    assert (CK : checkAddDirectDependency oen st o = true <-> oen o = false \/ hasDirect a o \/ hasOutDep a o).
    { unfold checkAddDirectDependency. destruct (oen o); cbn [negb]; [|tauto]. destruct (dirDep (nDeps st) o) as [[s' i']|] eqn:F.
      - split; [|reflexivity]. intros _. right. left. exists s', i'. apply (hd_dir _ _ _ _ HD). exact F.
      - assert (~ hasDirect a o) by (intros [s' [i' K]]; apply (hd_dir _ _ _ _ HD) in K; congruence).
        rewrite (hd_out _ _ _ _ HD). destruct (flat_map (updatesFor o) a) as [|v l] eqn:L; cbn [asList].
        + split; [discriminate|]. intros [K|[K|K]]; [discriminate|contradiction|]. apply hasOutDep_spec in K. rewrite L in K. contradiction.
        + split; [|reflexivity]. intros _. right. right. apply hasOutDep_spec. rewrite L. discriminate. }
    destruct (checkAddDirectDependency oen st o).
    + cbn [snd]. split; [|reflexivity]. intros _. destruct (proj1 CK eq_refl) as [K|[K|K]]; auto.
    + pose proof (addInput1_throws n sh sen st s i) as T. destruct (addInput n sh sen st s [i]) as [[st1 ev1] t]. cbn [snd] in T. destruct t; cbn [andThen snd].
      * split; [|reflexivity]. intros _. right. right. right. apply T. reflexivity.
      * split; [discriminate|]. intros K. assert (X : oen o = false \/ hasDirect a o \/ hasOutDep a o -> False) by (intros Y; apply CK in Y; discriminate).
        destruct K as [K|[K|[K|K]]]; [destruct X; auto|destruct X; auto|destruct X; auto|]. apply T in K. discriminate.
  - assert (BB : forall st0 x, snd (addInputOne n sen st0 s x) = true <-> sen s x = false).
    { intros st0 x. unfold addInputOne, addOne. destruct (sen s x); [|cbn; tauto]. destruct (inputs (nInp st0) s); cbn; split; discriminate. }
    transitivity (snd (iterN (fun st i => addInputOne n sen st s i) st is) = true).
    { unfold addInput. rewrite addInputRef_iter. destruct (iterN (fun st i => addInputOne n sen st s i) st is) as [[st1 ev1] t]. destruct t; cbn; [tauto|destruct sh; cbn; tauto]. }
    split.
    + intros K. apply (iter_throws_iff _ (fun _ x => sen s x = false) BB) in K. destruct K as [l1 [x [l2 [st1 [ev1 [-> [_ K]]]]]]].
      exists x. split; [apply in_or_app; right; left; reflexivity|exact K].
    + intros [x [J K]]. destruct (iterN (fun st i => addInputOne n sen st s i) st is) as [[st1 ev1] t] eqn:G. destruct t; [reflexivity|]. exfalso.
      clear -G J K BB. revert st st1 ev1 G. induction is as [|y os IH]; [destruct J|]. intros st st1 ev1 G.
      destruct (iterN_cons_ok _ _ _ _ _ _ G) as [st2 [ev2 [ev3 [E [G' _]]]]]. destruct J as [->|J]; [|exact (IH J _ _ _ G')].
      specialize (BB st x). rewrite E in BB. apply BB in K. discriminate.
Qed.

(* ---- execution ---- *)
Lemma execute_spec W p : (forall r, executePlan W p = Ok r -> Forall2 (fun c x => fst x = fst c /\ exists st, W (fst c) = Some st /\ nUpd st (snd c) = Some (snd x)) p r) /\
  (is_ok (executePlan W p) = true <-> forall s u, In (s, u) p -> exists st f, W s = Some st /\ nUpd st u = Some f) /\ executePlan W p <> Throw.
Proof.
  induction p as [|[s u] p [IH1 [IH2 IH3]]]; cbn [executePlan].
  - split; [intros r E; injection E as <-; constructor|]. split; [|discriminate]. split; [intros _ s u []|reflexivity].
  - destruct (W s) as [st|] eqn:E.
    + unfold runUpdate. destruct (nUpd st u) as [f|] eqn:F; cbn [bind].
      * destruct (executePlan W p) as [r| |] eqn:R; cbn [bind].
        -- split; [|split; [|discriminate]].
           ++ intros r' H. injection H as <-. constructor; [|apply IH1; reflexivity]. cbn [fst snd]. split; [reflexivity|]. exists st. auto.
           ++ split; [|reflexivity]. intros _ s' u' [J|J]; [injection J as <- <-; exists st, f; auto|]. apply IH2; [reflexivity|exact J].
        -- contradiction.
        -- split; [discriminate|]. split; [|discriminate]. split; [discriminate|]. intros K. apply IH2. intros s' u' J. apply K. right. exact J.
      * split; [discriminate|]. split; [|discriminate]. split; [discriminate|]. intros K. destruct (K s u (or_introl eq_refl)) as [st' [f [A B]]]. congruence.
    + split; [discriminate|]. split; [|discriminate]. split; [discriminate|]. intros K. destruct (K s u (or_introl eq_refl)) as [st' [f [A B]]]. congruence.
Qed.
