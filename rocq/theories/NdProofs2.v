(* Proofs about the declarations of a node: what the node and the log hold after any calls. *)
From Coq Require Import List Bool Arith Lia.
Import ListNotations.
From Verif Require Import Base GraphModel CallGraphModel InputsModel InputsSpec NdModel NdSpec NdProofs.
Local Open Scope nat_scope.

Definition allNew (ev : list logev) : Prop := NoDup (filter isInput ev).

(* effect of the calls that return *)
Lemma register_effect n uen l : forall st st' ev, registerUpdates n uen st l = (st', ev, false) ->
  nDeps st' = nDeps st /\ nInp st' = nInp st /\ ev = map (fun p => EUpdate n (fst p) (snd p)) l /\
  (forall u f, nUpd st' u = Some f <-> nUpd st u = Some f \/ In (u, f) l).
Proof.
  induction l as [|[u f] l IH]; intros st st' ev H.
  - cbn in H. injection H as <- <-. split; [reflexivity|]. split; [reflexivity|]. split; [reflexivity|]. intros u f. cbn. tauto.
  - rewrite registerUpdates_iter in H. destruct (iterN_cons_ok _ _ _ _ _ _ H) as [st1 [ev1 [ev2 [E [G ->]]]]].
    rewrite <- registerUpdates_iter in G. destruct (IH _ _ _ G) as [D [P [-> U]]]. cbn [fst snd] in E. unfold registerUpdate in E.
    destruct (negb (uen u)); [discriminate|]. destruct (nUpd st u) eqn:Nu; [discriminate|]. injection E as <- <-.
    split; [exact D|]. split; [exact P|]. split; [reflexivity|]. intros u' f'. rewrite U. cbn [nUpd].
    destruct (Nat.eq_dec u' u) as [->|Ne].
    + rewrite upd_same, Nu. split.
      * intros [E|J]; [injection E as <-; right; left; reflexivity|right; right; exact J].
      * intros [E|[E|J]]; [discriminate|injection E as <-; left; reflexivity|right; exact J].
    + rewrite upd_other by exact Ne. split.
      * intros [E|J]; [left; exact E|right; right; exact J].
      * intros [E|[E|J]]; [left; exact E|congruence|right; exact J].
Qed.
Lemma pushAt_asList m k v L j : m j = asList L -> pushAt m k v j = asList (L ++ if j =? k then [v] else []).
Proof.
  intros E. unfold pushAt. destruct (Nat.eqb_spec j k) as [->|Ne].
  - rewrite upd_same, E. destruct L; reflexivity.
  - rewrite upd_other by exact Ne. rewrite app_nil_r. exact E.
Qed.
Lemma output_effect n oen u l : forall st st' ev, addOutputDependencies n oen st l u = (st', ev, false) ->
  nUpd st' = nUpd st /\ nInp st' = nInp st /\ intDep (nDeps st') = intDep (nDeps st) /\ inDep (nDeps st') = inDep (nDeps st) /\
  dirDep (nDeps st') = dirDep (nDeps st) /\ ev = map (fun o => EOutputDep n o u) l /\
  (forall o, In o l -> dirDep (nDeps st) o = None) /\
  (forall o L, outDep (nDeps st) o = asList L -> outDep (nDeps st') o = asList (L ++ map (fun _ => u) (filter (Nat.eqb o) l))).
Proof.
  induction l as [|x l IH]; intros st st' ev H.
  - cbn in H. injection H as <- <-. repeat (split; [reflexivity|]). split; [intros o []|]. intros o L E. cbn. rewrite app_nil_r. exact E.
  - rewrite addOutputDependencies_iter in H. destruct (iterN_cons_ok _ _ _ _ _ _ H) as [st1 [ev1 [ev2 [E [G ->]]]]].
    rewrite <- addOutputDependencies_iter in G. destruct (IH _ _ _ G) as [A1 [A2 [A3 [A4 [A5 [-> [A6 A7]]]]]]].
    unfold addOutputDependency in E. destruct (negb (oen x)); [discriminate|].
    destruct (dirDep (nDeps st) x) eqn:Dx; [discriminate|]. injection E as <- <-.
    cbn [withDeps nDeps nUpd nInp intDep inDep dirDep outDep] in *.
    split; [exact A1|]. split; [exact A2|]. split; [exact A3|]. split; [exact A4|]. split; [exact A5|]. split; [reflexivity|]. split.
    + intros o [<-|J]; [exact Dx|exact (A6 o J)].
    + intros o L E. rewrite (A7 o _ (pushAt_asList _ x u L o E)). cbn [filter].
      destruct (o =? x); cbn [map]; rewrite <- app_assoc; reflexivity.
Qed.
Lemma addOne_holds en st s i st' : addOne en st s i = (st', false) ->
  forall t j, holds st' t j <-> (t = s /\ j = i) \/ holds st t j.
Proof.
  unfold addOne. destruct (en s i); [|discriminate]. intros H t j. unfold holds, getInput.
  destruct (inputs st s) as [l|] eqn:E; injection H as <-; cbn [inputs].
  - destruct (Nat.eq_dec t s) as [->|Ne].
    + rewrite upd_same, E. split.
      * intros [l' [F J]]. injection F as <-. apply In_sinsert in J. destruct J as [->|J]; [left; auto|right; exists l; auto].
      * intros [[_ ->]|[l' [F J]]]; eexists; (split; [reflexivity|]); apply In_sinsert; [left; reflexivity|]. injection F as <-. right. exact J.
    + rewrite upd_other by exact Ne. split; [intros K; right; exact K|]. intros [[-> _]|K]; [contradiction|exact K].
  - destruct (Nat.eq_dec t s) as [->|Ne].
    + rewrite upd_same, E. split.
      * intros [l' [F J]]. injection F as <-. destruct J as [<-|[]]. left. auto.
      * intros [[_ ->]|[l' [F J]]]; [exists [i]; split; [reflexivity|left; reflexivity]|discriminate].
    + rewrite upd_other by exact Ne. split; [intros K; right; exact K|]. intros [[-> _]|K]; [contradiction|exact K].
Qed.
Definition logged (n : nat) (st : nst) (ev : list logev) : Prop := forall e, In e (filter isInput ev) <-> exists s i, e = EInput n s i /\ hasInput st s i.
Lemma inputOne_effect n sen st s i st' ev0 ev : addInputOne n sen st s i = (st', ev, false) ->
  nUpd st' = nUpd st /\ nDeps st' = nDeps st /\ filter notInput ev = [] /\
  (forall t j, hasInput st' t j <-> (t = s /\ j = i) \/ hasInput st t j) /\
  (logged n st ev0 -> allNew ev0 -> logged n st' (ev0 ++ ev) /\ allNew (ev0 ++ ev)).
Proof.
  unfold addInputOne. destruct (addOne sen (nInp st) s i) as [ip t] eqn:E. destruct t; [discriminate|].
  intros H. injection H as <- Hev. pose proof (addOne_holds _ _ _ _ _ E) as HH.
  split; [reflexivity|]. split; [reflexivity|].
  set (new := match inputs (nInp st) s with Some l => negb (smem i l) | None => true end) in *.
  assert (NW : new = false <-> hasInput st s i).
  { unfold new, hasInput, holds, getInput. destruct (inputs (nInp st) s) as [l|].
    - split.
      + intros K. exists l. split; [reflexivity|]. apply smem_In. destruct (smem i l); [reflexivity|discriminate].
      + intros [l' [F J]]. injection F as <-. apply smem_In in J. rewrite J. reflexivity.
    - split; [discriminate|]. intros [l' [F _]]. discriminate. }
  split; [rewrite <- Hev; destruct new; reflexivity|]. split; [exact HH|].
  intros LG AN. unfold logged, allNew. rewrite filter_app, <- Hev. destruct new eqn:En.
  - cbn [filter isInput]. split.
    + intros e. rewrite in_app_iff. split.
      * intros [J|[<-|[]]].
        -- apply LG in J. destruct J as [s' [i' [-> K]]]. exists s', i'. split; [reflexivity|]. apply HH. right. exact K.
        -- exists s, i. split; [reflexivity|]. apply HH. left. auto.
      * intros [s' [i' [-> K]]]. apply HH in K. destruct K as [[-> ->]|K]; [right; left; reflexivity|].
        left. apply LG. exists s', i'. auto.
    + apply NoDup_rev in AN. rewrite <- (rev_involutive (filter isInput ev0 ++ [EInput n s i])). apply NoDup_rev.
      rewrite rev_app_distr. cbn [rev app]. constructor; [|exact AN]. intros J. apply in_rev in J. apply LG in J.
      destruct J as [s' [i' [E' K]]]. injection E' as <- <-. apply NW in K. discriminate.
  - cbn [filter]. rewrite app_nil_r. split; [|exact AN]. intros e. unfold logged in LG. rewrite LG. split.
    + intros [s' [i' [-> K]]]. exists s', i'. split; [reflexivity|]. apply HH. right. exact K.
    + intros [s' [i' [-> K]]]. exists s', i'. split; [reflexivity|]. apply HH in K. destruct K as [[-> ->]|K]; [|exact K]. apply NW. reflexivity.
Qed.
Lemma inputRef_effect n sen s l : forall st st' ev0 ev, addInputRef n sen st s l = (st', ev, false) ->
  nUpd st' = nUpd st /\ nDeps st' = nDeps st /\ filter notInput ev = [] /\
  (forall t j, hasInput st' t j <-> (t = s /\ In j l) \/ hasInput st t j) /\
  (logged n st ev0 -> allNew ev0 -> logged n st' (ev0 ++ ev) /\ allNew (ev0 ++ ev)).
Proof.
  induction l as [|i l IH]; intros st st' ev0 ev H.
  - cbn in H. injection H as <- <-. repeat (split; [reflexivity|]). split; [intros t j; cbn; tauto|]. intros A B. rewrite app_nil_r. auto.
  - rewrite addInputRef_iter in H. destruct (iterN_cons_ok _ _ _ _ _ _ H) as [st1 [ev1 [ev2 [E [G ->]]]]].
    rewrite <- addInputRef_iter in G. destruct (inputOne_effect _ _ _ _ _ _ ev0 _ E) as [A1 [A2 [A3 [A4 A5]]]].
    destruct (IH _ _ (ev0 ++ ev1) _ G) as [B1 [B2 [B3 [B4 B5]]]].
    split; [congruence|]. split; [congruence|]. split; [rewrite filter_app, A3, B3; reflexivity|]. split.
    + intros t j. rewrite B4, A4. cbn [In]. intuition congruence.
    + intros LG AN. destruct (A5 LG AN) as [C1 C2]. rewrite app_assoc. apply B5; assumption.
Qed.
Lemma addInput_effect n sh sen s l st st' ev0 ev : addInput n sh sen st s l = (st', ev, false) ->
  nUpd st' = nUpd st /\ nDeps st' = nDeps st /\ filter notInput ev = [] /\
  (forall t j, hasInput st' t j <-> (t = s /\ In j l) \/ hasInput st t j) /\
  (logged n st ev0 -> allNew ev0 -> logged n st' (ev0 ++ ev) /\ allNew (ev0 ++ ev)).
Proof.
  unfold addInput. destruct (addInputRef n sen st s l) as [[st1 ev1] t] eqn:E. destruct t; cbn [andThen]; [discriminate|].
  intros H. destruct (inputRef_effect _ _ _ _ _ _ ev0 _ E) as [A1 [A2 [A3 [A4 A5]]]].
  destruct sh; injection H as <- <-; rewrite app_nil_r.
  - split; [exact A1|]. split; [exact A2|]. split; [exact A3|]. split; [exact A4|exact A5].
  - split; [exact A1|]. split; [exact A2|]. split; [exact A3|]. split; [exact A4|exact A5].
Qed.
Definition tidy (st : nst) : Prop := forall u l, inDep (nDeps st) u = Some l -> keysFrom 0 l.
Lemma inputDeps_effect n u s l : forall st st' ev, addInputDependencyPtr n st u s l = (st', ev, false) ->
  nUpd st' = nUpd st /\ nInp st' = nInp st /\ intDep (nDeps st') = intDep (nDeps st) /\ outDep (nDeps st') = outDep (nDeps st) /\
  dirDep (nDeps st') = dirDep (nDeps st) /\ ev = map (fun i => EInputDep n u s i) l /\ (tidy st -> tidy st') /\
  (forall u' t j, depends st' u' t j <-> (u' = u /\ t = s /\ In j l) \/ depends st u' t j).
Proof.
  induction l as [|i l IH]; intros st st' ev H.
  - cbn in H. injection H as <- <-. repeat (split; [reflexivity|]). split; [auto|]. intros u' t j. cbn. tauto.
  - rewrite addInputDependencyPtr_iter in H. destruct (iterN_cons_ok _ _ _ _ _ _ H) as [st1 [ev1 [ev2 [E [G ->]]]]].
    rewrite <- addInputDependencyPtr_iter in G. destruct (IH _ _ _ G) as [A1 [A2 [A3 [A4 [A5 [-> [A6 A7]]]]]]].
    unfold addInputDependency1 in E. injection E as <- <-. cbn [withDeps nDeps nUpd nInp intDep inDep dirDep outDep] in *.
    repeat (split; [assumption || reflexivity|]).
    set (L := match inDep (nDeps st) u with Some l0 => minsert s i l0 | None => [(s, [i])] end) in *.
    split.
    + intros T. apply A6. intros u' l' F. cbn [withDeps nDeps inDep] in F. destruct (Nat.eq_dec u' u) as [->|Ne].
      * rewrite upd_same in F. injection F as <-. unfold L. destruct (inDep (nDeps st) u) as [l0|] eqn:F0.
        -- apply minsert_keys; [exact (T _ _ F0)|lia].
        -- split; [lia|exact I].
      * rewrite upd_other in F by exact Ne. exact (T _ _ F).
    + assert (ST : forall u' t j, (exists l0 is, upd (inDep (nDeps st)) u (Some L) u' = Some l0 /\ In (t, is) l0 /\ In j is) <->
                     (u' = u /\ t = s /\ j = i) \/ depends st u' t j).
      { intros u' t j. unfold depends. destruct (Nat.eq_dec u' u) as [->|Ne].
        - rewrite upd_same. unfold L. destruct (inDep (nDeps st) u) as [l0|].
          + split.
            * intros [l1 [is [F [J1 J2]]]]. injection F as <-. destruct (proj1 (inMap_minsert s i l0 t j) (ex_intro _ is (conj J1 J2))) as [[-> ->]|[is' [K1 K2]]].
              -- left. auto.
              -- right. exists l0, is'. auto.
            * intros K. assert (M : inMap (minsert s i l0) t j).
              { apply inMap_minsert. destruct K as [[_ [-> ->]]|[l1 [is [F [J1 J2]]]]]; [left; auto|]. injection F as <-. right. exists is. auto. }
              destruct M as [is [M1 M2]]. exists (minsert s i l0), is. auto.
          + split.
            * intros [l1 [is [F [J1 J2]]]]. injection F as <-. destruct J1 as [E|[]]. injection E as <- <-. destruct J2 as [<-|[]]. left. auto.
            * intros [[_ [-> ->]]|[l1 [is [F _]]]]; [|discriminate]. exists [(s, [i])], [i]. split; [reflexivity|]. split; left; reflexivity.
        - rewrite upd_other by exact Ne. split; [intros K; right; exact K|]. intros [[K _]|K]; [contradiction|exact K]. }
      intros u' t j. rewrite A7. unfold depends at 1. cbn [withDeps nDeps inDep]. rewrite ST. cbn [In]. intuition congruence.
Qed.

(* the invariant *)
Record holdsDecl (n : nat) (st : nst) (ev : list logev) (a : list nop) : Prop := {
  hd_upd : forall u f, nUpd st u = Some f <-> registers a u f;
  hd_out : forall o, outDep (nDeps st) o = asList (flat_map (updatesFor o) a);
  hd_int : forall u, intDep (nDeps st) u = asList (flat_map (updatesBefore u) a);
  hd_in : forall u s i, depends st u s i <-> usesInput a u s i;
  hd_dir : forall o s i, dirDep (nDeps st) o = Some (s, i) <-> forwards a o s i;
  hd_mix : forall o, dirDep (nDeps st) o = None \/ outDep (nDeps st) o = None;
  hd_inp : forall s i, hasInput st s i <-> takes a s i;
  hd_decl : filter notInput ev = flat_map (declarations n) a;
  hd_logged : logged n st ev;
  hd_new : allNew ev;
  hd_tidy : tidy st }.

Lemma In_snoc {A} (l : list A) x y : In y (l ++ [x]) <-> In y l \/ y = x.
Proof. rewrite in_app_iff. cbn. intuition congruence. Qed.
Ltac snoc := rewrite ?In_snoc.
Lemma flat_snoc {A B} (f : A -> list B) l x : flat_map f (l ++ [x]) = flat_map f l ++ f x.
Proof. rewrite flat_map_app. cbn. rewrite app_nil_r. reflexivity. Qed.
Lemma asList_app_nil {A} (l : list A) : asList (l ++ []) = asList l.
Proof. rewrite app_nil_r. reflexivity. Qed.

Lemma registers_snoc a o u f : registers (a ++ [o]) u f <-> registers a u f \/ match o with NRegister _ ufs => In (u, f) ufs | _ => False end.
Proof.
  unfold registers. split.
  - intros [uen [ufs [J K]]]. apply In_snoc in J. destruct J as [J|<-]; [left; exists uen, ufs; auto|right; exact K].
  - intros [[uen [ufs [J K]]]|K]; [exists uen, ufs; snoc; auto|]. destruct o; try contradiction. eexists. eexists. split; [apply In_snoc; right; reflexivity|exact K].
Qed.
Lemma forwards_snoc a c o s i : forwards (a ++ [c]) o s i <-> forwards a o s i \/ match c with NDirect _ _ _ o' s' i' => o' = o /\ s' = s /\ i' = i | _ => False end.
Proof.
  unfold forwards. split.
  - intros [sh [oen [sen J]]]. apply In_snoc in J. destruct J as [J|<-]; [left; exists sh, oen, sen; auto|right; auto].
  - intros [[sh [oen [sen J]]]|K]; [exists sh, oen, sen; snoc; auto|]. destruct c; try contradiction. destruct K as [-> [-> ->]].
    eexists. eexists. eexists. apply In_snoc. right. reflexivity.
Qed.
Lemma usesInput_snoc a c u s i : usesInput (a ++ [c]) u s i <-> usesInput a u s i \/ match c with NInput _ _ _ u' s' is => u' = u /\ s' = s /\ In i is | _ => False end.
Proof.
  unfold usesInput. split.
  - intros [sh [uen [sen [is [J K]]]]]. apply In_snoc in J. destruct J as [J|<-]; [left; exists sh, uen, sen, is; auto|right; auto].
  - intros [[sh [uen [sen [is [J K]]]]]|K]; [exists sh, uen, sen, is; snoc; auto|]. destruct c; try contradiction. destruct K as [-> [-> K]].
    eexists. eexists. eexists. eexists. split; [apply In_snoc; right; reflexivity|exact K].
Qed.
Definition takes1 (c : nop) (s i : nat) : Prop :=
  match c with
  | NAddInput _ _ s' is => s' = s /\ In i is
  | NInput _ _ _ _ s' is => s' = s /\ In i (firstn 1 is)
  | NDirect _ _ _ _ s' i' => s' = s /\ i' = i
  | _ => False
  end.
Lemma takes_snoc a c s i : takes (a ++ [c]) s i <-> takes a s i \/ takes1 c s i.
Proof.
  unfold takes. split.
  - intros [[sh [sen [is [J K]]]]|[[sh [uen [sen [u [is J]]]]]|[sh [oen [sen [o J]]]]]]; apply In_snoc in J; destruct J as [J|<-].
    + left. left. exists sh, sen, is. auto.
    + right. cbn. auto.
    + left. right. left. exists sh, uen, sen, u, is. exact J.
    + right. cbn. auto.
    + left. right. right. exists sh, oen, sen, o. exact J.
    + right. cbn. auto.
  - intros [[[sh [sen [is [J K]]]]|[[sh [uen [sen [u [is J]]]]]|[sh [oen [sen [o J]]]]]]|K].
    + left. exists sh, sen, is. snoc. auto.
    + right. left. exists sh, uen, sen, u, is. snoc. auto.
    + right. right. exists sh, oen, sen, o. snoc. auto.
    + destruct c as [| | |sh uen sen u s' is|sh oen sen o s' i'|sh sen s' is]; cbn in K; try contradiction.
      * destruct K as [-> K]. destruct is as [|x is]; [destruct K|]. destruct K as [->|[]]. right. left. exists sh, uen, sen, u, is. snoc. auto.
      * destruct K as [-> ->]. right. right. exists sh, oen, sen, o. snoc. auto.
      * destruct K as [-> K]. left. exists sh, sen, is. snoc. auto.
Qed.
