(* The call graph: invariants of addOutput/addCall. *)
Require Import List Arith Bool Lia Permutation Relations.
Require Import Verif.Base Verif.GraphModel Verif.GraphSpec Verif.ListLemmas Verif.GraphProofs Verif.OrderProofs.
Require Import Verif.CallGraphModel Verif.CallGraphSpec.
Import ListNotations.

Lemma pair_eqb_spec a b : pair_eqb a b = true <-> a = b.
Proof.
  unfold pair_eqb. destruct a as [a1 a2], b as [b1 b2]. simpl. rewrite andb_true_iff, !Nat.eqb_eq. split.
  - intros [-> ->]. reflexivity.
  - intros [= -> ->]. auto.
Qed.
Lemma call_eq_dec (a b : call) : {a = b} + {a <> b}.
Proof. decide equality; apply Nat.eq_dec. Qed.

Section CG.
Variables (N : net) (U : list call) (rank : nat -> nat -> nat) (D : nat).
Hypothesis FE : forwarding_ends N rank D.
Hypothesis UC : forall c d, In c U -> dep N c d -> In d U.
Hypothesis UN : forall c, In c U -> N (fst c) <> None.

Definition cidx (st : cgraph) (i : nat) (c : call) : Prop := nth_error (calls_ st) i = Some c.
Definition fed (st : cgraph) (s o : nat) (ids : list nat) : Prop :=
  (forall c, feeds N s o c -> In c (calls_ st)) /\
  (forall i, In i ids <-> exists c, feeds N s o c /\ cidx st i c).

Record CI (st : cgraph) : Prop := mkCI {
  ci_g : exists a, gwf (dg st) a /\ an a = length (calls_ st);
  ci_nd : NoDup (calls_ st);
  ci_id : forall c i, lookup (callId_ st) c = Some i <-> cidx st i c;
  ci_edge : forall i j, In (i, j) (edges_ (dg st)) -> exists c d, cidx st i c /\ cidx st j d /\ dep N c d;
  ci_vis : forall s o ids, lookup (visited_ st) (s, o) = Some ids -> fed st s o ids
}.
Definition ext (st st' : cgraph) : Prop :=
  (exists new, calls_ st' = calls_ st ++ new) /\ incl (edges_ (dg st)) (edges_ (dg st')).
Definition processed (st : cgraph) (c : call) : Prop :=
  forall d, dep N c d -> exists i j, cidx st i c /\ cidx st j d /\ In (i, j) (edges_ (dg st)).
Definition post (st st' : cgraph) (P : call -> Prop) : Prop :=
  CI st' /\ ext st st' /\
  forall d, In d (calls_ st') -> In d (calls_ st) \/ (processed st' d /\ exists c0, P c0 /\ clos_refl_trans call (dep N) c0 d).

Lemma cidx_ext st st' i c : ext st st' -> cidx st i c -> cidx st' i c.
Proof. intros [[new E] _] H. unfold cidx in *. rewrite E, nth_error_app1; [exact H|]. apply nth_error_Some. congruence. Qed.
Lemma in_ext st st' c : ext st st' -> In c (calls_ st) -> In c (calls_ st').
Proof. intros [[new E] _] H. rewrite E. apply in_or_app. auto. Qed.
Lemma ext_refl st : ext st st.
Proof. split; [exists []; rewrite app_nil_r; reflexivity|apply incl_refl]. Qed.
Lemma ext_trans a b c : ext a b -> ext b c -> ext a c.
Proof.
  intros [[n E] I] [[m F] J]. split; [exists (n ++ m); rewrite F, E, app_assoc; reflexivity|].
  intros x X. apply J, I, X.
Qed.
Lemma processed_ext st st' c : ext st st' -> processed st c -> processed st' c.
Proof.
  intros X H d Q. destruct (H d Q) as [i [j [I [J E]]]]. exists i, j.
  split; [eapply cidx_ext; eauto|]. split; [eapply cidx_ext; eauto|]. apply X, E.
Qed.
Lemma cidx_inj st i j c : CI st -> cidx st i c -> cidx st j c -> i = j.
Proof.
  intros C I J. unfold cidx in *. apply (proj1 (NoDup_nth_error _) (ci_nd _ C)); [|congruence].
  apply nth_error_Some. congruence.
Qed.
Lemma cidx_fun st i c d : cidx st i c -> cidx st i d -> c = d.
Proof. unfold cidx. congruence. Qed.
Lemma in_cidx st c : In c (calls_ st) -> exists i, cidx st i c.
Proof. apply In_nth_error. Qed.
Lemma cidx_in st i c : cidx st i c -> In c (calls_ st).
Proof. apply nth_error_In. Qed.
Lemma cidx_lt st i c : cidx st i c -> i < length (calls_ st).
Proof. intros H. apply nth_error_Some. unfold cidx in H. congruence. Qed.
Lemma fed_ext st st' s o ids : CI st' -> ext st st' -> fed st s o ids -> fed st' s o ids.
Proof.
  intros C' X [A B]. split; [intros c F; eapply in_ext; eauto|]. intros i. rewrite B. split.
  - intros [c [F I]]. exists c. split; [exact F|]. eapply cidx_ext; eauto.
  - intros [c [F I]]. exists c. split; [exact F|]. destruct (in_cidx _ _ (A c F)) as [j J].
    assert (i = j) by (eapply cidx_inj; [exact C'|exact I|eapply cidx_ext; eauto]). subst j. exact J.
Qed.
Lemma post_refl st P : CI st -> post st st P.
Proof. intros C. split; [exact C|]. split; [apply ext_refl|]. auto. Qed.
Lemma post_trans a b c P : post a b P -> post b c P -> post a c P.
Proof.
  intros [Cb [Xab Hb]] [Cc [Xbc Hc]]. split; [exact Cc|]. split; [eapply ext_trans; eauto|].
  intros d Q. destruct (Hc d Q) as [Q'|Q']; [|right; exact Q'].
  destruct (Hb d Q') as [K|[K1 K2]]; [left; exact K|right]. split; [|exact K2]. eapply processed_ext; eauto.
Qed.
Lemma post_weak a b (P Q : call -> Prop) : (forall c, P c -> exists c0, Q c0 /\ clos_refl_trans call (dep N) c0 c) ->
  post a b P -> post a b Q.
Proof.
  intros PQ [C [X H]]. split; [exact C|]. split; [exact X|]. intros d I. destruct (H d I) as [K|[K [c0 [P0 R]]]]; [auto|].
  right. split; [exact K|]. destruct (PQ c0 P0) as [c1 [Q1 R1]]. exists c1. split; [exact Q1|]. eapply rt_trans; eauto.
Qed.
Lemma post_imp a b (P Q : call -> Prop) : (forall c, P c -> Q c) -> post a b P -> post a b Q.
Proof. intros H. apply post_weak. intros c K. exists c. split; [auto|apply rt_refl]. Qed.

(* calls of U not yet added *)
Definition white (st : cgraph) : nat := length (filter (fun c => if in_dec call_eq_dec c (calls_ st) then false else true) U).
Lemma filter_len_le {A} (p q : A -> bool) l : (forall x, p x = true -> q x = true) ->
  length (filter p l) <= length (filter q l).
Proof.
  intros H. induction l as [|x l IH]; simpl; [lia|]. specialize (H x). destruct (p x), (q x); simpl; try lia; discriminate (H eq_refl).
Qed.
Lemma filter_len_lt {A} (p q : A -> bool) l x : (forall x, p x = true -> q x = true) -> In x l -> p x = false -> q x = true ->
  length (filter p l) < length (filter q l).
Proof.
  intros H I PX QX. induction l as [|y l IH]; [destruct I|]. simpl. destruct I as [->|I].
  - rewrite PX, QX. simpl. pose proof (filter_len_le p q l H). lia.
  - specialize (IH I). pose proof (H y) as HY. destruct (p y), (q y); simpl; try lia; discriminate (HY eq_refl).
Qed.
Lemma white_ext st st' : ext st st' -> white st' <= white st.
Proof.
  intros X. apply filter_len_le. intros c. destruct (in_dec call_eq_dec c (calls_ st')) as [I|I]; [discriminate|].
  destruct (in_dec call_eq_dec c (calls_ st)) as [J|J]; [|auto]. elim I. eapply in_ext; eauto.
Qed.

Definition need (st : cgraph) : nat := white st * (D + 2).
Definition out_ok (f : nat) : Prop := forall s o st, CI st -> (forall c, feeds N s o c -> In c U) ->
  need st + rank s o + 2 <= f -> exists ids st', addOutput f N s o st = Ok (ids, st') /\ post st st' (feeds N s o) /\ fed st' s o ids.
Definition call_ok (f : nat) : Prop := forall c st, CI st -> In c U -> need st + 1 <= f ->
  exists i st', addCall f N c st = Ok (i, st') /\ post st st' (eq c) /\ cidx st' i c.

Lemma need_ext st st' : ext st st' -> need st' <= need st.
Proof. intros X. unfold need. apply Nat.mul_le_mono_r, white_ext, X. Qed.

Lemma outLoop_ok f s (P : call -> Prop) : call_ok f -> forall us st, CI st -> (forall u, In u us -> In (s, u) U) -> need st + 1 <= f ->
  exists ids st', outLoop (addCall f N) s us st = Ok (ids, st') /\ post st st' (fun c => exists u, In u us /\ c = (s, u)) /\
    (forall i, In i ids <-> exists u, In u us /\ cidx st' i (s, u)) /\ (forall u, In u us -> In (s, u) (calls_ st')).
Proof.
  intros OK. induction us as [|u us IH]; intros st C B F; cbn [outLoop].
  - exists [], st. split; [reflexivity|]. split; [apply post_refl, C|]. split; [|intros u []].
    intros i. split; [intros []|intros [u [[] _]]].
  - destruct (OK (s, u) st C (B u (or_introl eq_refl)) F) as [i [st1 [A [P1 I1]]]]. rewrite A. cbn [bind].
    destruct P1 as [C1 [X1 H1]].
    destruct (IH st1 C1 (fun u' H => B u' (or_intror H)) ltac:(pose proof (need_ext _ _ X1); lia)) as [ids [st2 [A2 [P2 [J2 K2]]]]].
    rewrite A2. cbn [bind]. exists (i :: ids), st2. split; [reflexivity|].
    assert (X2 : ext st1 st2) by apply P2. assert (C2 : CI st2) by apply P2. split; [|split].
    + eapply post_trans.
      * eapply post_imp; [|split; [exact C1|split; [exact X1|exact H1]]]. intros c <-. exists u. simpl. auto.
      * eapply post_imp; [|exact P2]. intros c [u' [Q ->]]. exists u'. simpl. auto.
    + intros j. simpl. rewrite J2. split.
      * intros [<-|[u' [Q Z]]]; [exists u; split; [auto|eapply cidx_ext; eauto]|exists u'; auto].
      * intros [u' [[<-|Q] Z]]; [left|right; exists u'; auto]. eapply cidx_inj; [exact C2|eapply cidx_ext; eauto|exact Z].
    + intros u' [<-|Q]; [eapply in_ext; [exact X2|]; eapply cidx_in; eauto|auto].
Qed.

(* adding edges from c to calls it depends on *)
Lemma edgeLoop_ok id c (cid : nat) ids : forall st, CI st -> cidx st id c ->
  (forall i, In i ids -> exists d, cidx st i d /\ dep N c d) ->
  exists st', edgeLoop id ids st = Ok st' /\ CI st' /\ calls_ st' = calls_ st /\ visited_ st' = visited_ st /\
    incl (edges_ (dg st)) (edges_ (dg st')) /\ forall i, In i ids -> In (id, i) (edges_ (dg st')).
Proof.
  induction ids as [|i ids IH]; intros st C I B; cbn [edgeLoop].
  - exists st. split; [reflexivity|]. split; [exact C|]. split; [reflexivity|]. split; [reflexivity|].
    split; [apply incl_refl|intros i []].
  - destruct (B i (or_introl eq_refl)) as [d [J Q]]. destruct (ci_g _ C) as [a [W L]].
    destruct (addEdge_ok (dg st) a id i W) as [g' [b [A [W' _]]]]; [rewrite L; eapply cidx_lt; eauto|rewrite L; eapply cidx_lt; eauto|].
    rewrite A. cbn [bind]. set (st1 := mkCG (callId_ st) (calls_ st) g' (visited_ st)).
    assert (EE : forall x y, In (x, y) (edges_ g') <-> In (x, y) (edges_ (dg st)) \/ (x = id /\ y = i)).
    { intros x y. rewrite (gw_edges _ _ W'), (gw_edges _ _ W). cbn [aE astep]. tauto. }
    assert (C1 : CI st1).
    { constructor.
      - exists (astep a (GEdge id i)). split; [exact W'|exact L].
      - exact (ci_nd _ C).
      - exact (ci_id _ C).
      - intros x y H. apply EE in H. destruct H as [H|[-> ->]]; [apply (ci_edge _ C _ _ H)|].
        exists c, d. auto.
      - exact (ci_vis _ C). }
    destruct (IH st1 C1 I) as [st' [A2 [C2 [E1 [E2 [IN OUT]]]]]].
    { intros i' H. destruct (B i' (or_intror H)) as [d' Z]. exists d'. exact Z. }
    exists st'. split; [exact A2|]. split; [exact C2|]. split; [exact E1|]. split; [exact E2|].
    assert (IN0 : incl (edges_ (dg st)) (edges_ (dg st'))).
    { intros [x y] H. apply IN. apply EE. auto. }
    split; [exact IN0|]. intros i' [<-|H]; [|auto]. apply IN, EE. auto.
Qed.

(* states in which the dependencies of c listed so far are linked *)
Definition linkedTo (st : cgraph) (id : nat) (d : call) : Prop := exists j, cidx st j d /\ In (id, j) (edges_ (dg st)).
Lemma linkedTo_ext st st' id d : ext st st' -> linkedTo st id d -> linkedTo st' id d.
Proof. intros X [j [J E]]. exists j. split; [eapply cidx_ext; eauto|apply X, E]. Qed.
Lemma edges_post st st' : CI st' -> calls_ st' = calls_ st -> incl (edges_ (dg st)) (edges_ (dg st')) ->
  forall P, post st st' P.
Proof.
  intros C E I P. split; [exact C|]. split; [split; [exists []; rewrite app_nil_r; exact E|exact I]|].
  intros d Q. left. rewrite <- E. exact Q.
Qed.

Lemma intLoop_ok f s u id : call_ok f -> forall us st, CI st -> cidx st id (s, u) ->
  (forall u', In u' us -> dep N (s, u) (s, u')) -> In (s, u) U -> need st + 1 <= f ->
  exists st', intLoop (addCall f N) s id us st = Ok st' /\ post st st' (dep N (s, u)) /\
    forall u', In u' us -> linkedTo st' id (s, u').
Proof.
  intros OK. induction us as [|v us IH]; intros st C I B IU F; cbn [intLoop].
  - exists st. split; [reflexivity|]. split; [apply post_refl, C|intros u' []].
  - assert (DV : dep N (s, u) (s, v)) by (apply B; simpl; auto).
    destruct (OK (s, v) st C (UC _ _ IU DV) F) as [i [st1 [A [P1 I1]]]]. rewrite A. cbn [bind].
    assert (X1 : ext st st1) by apply P1. assert (C1 : CI st1) by apply P1.
    destruct (edgeLoop_ok id (s, u) 0 [i] st1 C1 (cidx_ext _ _ _ _ X1 I)) as [st2 [A2 [C2 [E1 [E2 [IN OUT]]]]]].
    { intros i' [<-|[]]. exists (s, v). auto. }
    rewrite A2. cbn [bind]. assert (P2 : post st1 st2 (dep N (s, u))) by (apply edges_post; assumption).
    assert (X2 : ext st1 st2) by apply P2.
    destruct (IH st2 C2) as [st3 [A3 [P3 L3]]].
    + eapply cidx_ext; [exact X2|]. eapply cidx_ext; eauto.
    + intros u' H. apply B. simpl. auto.
    + exact IU.
    + pose proof (need_ext _ _ X1). pose proof (need_ext _ _ X2). lia.
    + exists st3. split; [exact A3|]. split.
      * eapply post_trans; [|eapply post_trans; [exact P2|exact P3]]. eapply post_imp; [|exact P1]. intros c <-. exact DV.
      * intros u' [<-|H]; [|apply L3, H]. eapply linkedTo_ext; [apply P3|]. exists i. split; [eapply cidx_ext; eauto|].
        apply OUT. simpl. auto.
Qed.

Lemma oneInLoop_ok f c id s' : out_ok f -> forall os st, CI st -> cidx st id c ->
  (forall o d, In o os -> feeds N s' o d -> dep N c d) -> In c U -> need st + D + 2 <= f ->
  exists st', oneInLoop (addOutput f N) id s' os st = Ok st' /\ post st st' (dep N c) /\
    forall o d, In o os -> feeds N s' o d -> linkedTo st' id d.
Proof.
  intros OK. induction os as [|o os IH]; intros st C I B IU F; cbn [oneInLoop].
  - exists st. split; [reflexivity|]. split; [apply post_refl, C|intros o d []].
  - destruct (OK s' o st C) as [ids [st1 [A [P1 F1]]]].
    { intros d H. apply (UC _ _ IU). apply (B o d); simpl; auto. } { pose proof (proj1 FE s' o). lia. }
    rewrite A. cbn [bind]. assert (X1 : ext st st1) by apply P1. assert (C1 : CI st1) by apply P1.
    destruct (edgeLoop_ok id c 0 ids st1 C1 (cidx_ext _ _ _ _ X1 I)) as [st2 [A2 [C2 [E1 [E2 [IN OUT]]]]]].
    { intros i H. apply (proj2 F1) in H. destruct H as [d [Q J]]. exists d. split; [exact J|]. apply (B o d); simpl; auto. }
    rewrite A2. cbn [bind]. assert (P2 : post st1 st2 (dep N c)) by (apply edges_post; assumption).
    assert (X2 : ext st1 st2) by apply P2.
    destruct (IH st2 C2) as [st3 [A3 [P3 L3]]].
    + eapply cidx_ext; [exact X2|]. eapply cidx_ext; eauto.
    + intros o' d H. apply B. simpl. auto.
    + exact IU.
    + pose proof (need_ext _ _ X1). pose proof (need_ext _ _ X2). lia.
    + exists st3. split; [exact A3|]. split.
      * eapply post_trans; [|eapply post_trans; [exact P2|exact P3]]. eapply post_imp; [|exact P1].
        intros d H. apply (B o d); simpl; auto.
      * intros o' d [<-|H] Q; [|apply (L3 o' d H Q)]. eapply linkedTo_ext; [apply P3|].
        destruct (in_cidx _ _ (proj1 F1 d Q)) as [j J]. exists j. split; [eapply cidx_ext; eauto|]. apply OUT.
        apply (proj2 F1). exists d. auto.
Qed.
Lemma inLoop_ok f c id : out_ok f -> forall l st, CI st -> cidx st id c ->
  (forall s' os o d, In (s', os) l -> In o os -> feeds N s' o d -> dep N c d) -> In c U -> need st + D + 2 <= f ->
  exists st', inLoop (addOutput f N) id l st = Ok st' /\ post st st' (dep N c) /\
    forall s' os o d, In (s', os) l -> In o os -> feeds N s' o d -> linkedTo st' id d.
Proof.
  intros OK. induction l as [|[s' os] l IH]; intros st C I B IU F; cbn [inLoop].
  - exists st. split; [reflexivity|]. split; [apply post_refl, C|intros s' os o d []].
  - destruct (oneInLoop_ok f c id s' OK os st C I) as [st1 [A [P1 L1]]]; [|exact IU|exact F|].
    { intros o d H. apply (B s' os o d); simpl; auto. }
    rewrite A. cbn [bind]. assert (X1 : ext st st1) by apply P1. assert (C1 : CI st1) by apply P1.
    destruct (IH st1 C1 (cidx_ext _ _ _ _ X1 I)) as [st2 [A2 [P2 L2]]].
    + intros s2 os2 o d H. apply B. simpl. auto.
    + exact IU.
    + pose proof (need_ext _ _ X1). lia.
    + exists st2. split; [exact A2|]. split; [eapply post_trans; eauto|].
      intros s2 os2 o d [[= <- <-]|H] HO Q; [|eapply L2; eauto]. eapply linkedTo_ext; [apply P2|]. eapply L1; eauto.
Qed.

Lemma cg_ok f : out_ok f /\ call_ok f.
Proof.
  induction f as [|f [IHo IHc]]; [split; [intros ? ? ? ? ? H|intros ? ? ? ? H]; lia|]. split.
  - (* addOutput *)
    intros s o st C B F. cbn [addOutput].
    destruct (lookup (visited_ st) (s, o)) as [ids|] eqn:LV.
    { exists ids, st. split; [reflexivity|]. split; [apply post_refl, C|]. apply (ci_vis _ C), LV. }
    assert (FIN : forall ids st1, post st st1 (feeds N s o) -> fed st1 s o ids ->
      exists ids' st', Ok (ids, mkCG (callId_ st1) (calls_ st1) (dg st1) (((s, o), ids) :: visited_ st1)) = Ok (ids', st') /\
        post st st' (feeds N s o) /\ fed st' s o ids').
    { intros ids st1 [C1 [X1 H1]] FD. eexists _, _. split; [reflexivity|]. split; [|exact FD].
      split; [|split; [exact X1|exact H1]]. constructor; cbn [callId_ calls_ dg visited_].
      - apply (ci_g _ C1). - apply (ci_nd _ C1). - apply (ci_id _ C1). - apply (ci_edge _ C1).
      - intros s2 o2 ids2. cbn [lookup]. destruct (pair_eqb (s, o) (s2, o2)) eqn:Q.
        + apply pair_eqb_spec in Q. injection Q as <- <-. intros [= <-]. exact FD.
        + intros Q'. apply (ci_vis _ C1), Q'. }
    assert (NONE : (forall c, ~ feeds N s o c) -> fed st s o []).
    { intros H. split; [intros c Q; elim (H c Q)|]. intros i. split; [intros []|intros [c [Q _]]; elim (H c Q)]. }
    destruct (N s) as [nd|] eqn:NS.
    + destruct (outDep nd o) as [us|] eqn:OD.
      * destruct (outLoop_ok f s (fun _ => True) IHc us st C) as [ids [st1 [A [P1 [J1 K1]]]]].
        { intros u H. apply B. eapply feeds_out; eauto. } { lia. }
        rewrite A. cbn [bind]. apply FIN.
        -- eapply post_imp; [|exact P1]. intros c [u [H ->]]. eapply feeds_out; eauto.
        -- assert (INV : forall c, feeds N s o c <-> exists u, In u us /\ c = (s, u)).
           { intros c. split.
             - intros Q. inversion Q as [? nd' ? us' u N1 O1 I1|? nd' ? ? ? ? N1 O1 ? ?]; subst.
               + rewrite NS in N1. injection N1 as <-. rewrite OD in O1. injection O1 as <-. exists u. auto.
               + rewrite NS in N1. injection N1 as <-. congruence.
             - intros [u [H ->]]. eapply feeds_out; eauto. }
           split.
           ++ intros c Q. apply INV in Q. destruct Q as [u [H ->]]. apply K1, H.
           ++ intros i. rewrite J1. split.
              ** intros [u [H Q]]. exists (s, u). split; [apply INV; exists u; auto|exact Q].
              ** intros [c [Q I]]. apply INV in Q. destruct Q as [u [H ->]]. exists u. auto.
      * destruct (dirDep nd o) as [[s' o']|] eqn:DD.
        -- assert (INV : forall c, feeds N s o c <-> feeds N s' o' c).
           { intros c. split.
             - intros Q. inversion Q as [? nd' ? us' u N1 O1 I1|? nd' ? s2 o2 ? N1 O1 D1 F1]; subst.
               + rewrite NS in N1. injection N1 as <-. congruence.
               + rewrite NS in N1. injection N1 as <-. rewrite DD in D1. injection D1 as <- <-. exact F1.
             - intros Q. eapply feeds_dir; eauto. }
           destruct (IHo s' o' st C) as [ids [st1 [A [P1 F1]]]].
           { intros c Q. apply B, INV, Q. } { pose proof (proj2 FE s nd o s' o' NS OD DD). lia. }
           rewrite A. cbn [bind]. apply FIN.
           ++ eapply post_imp; [|exact P1]. intros c. apply INV.
           ++ destruct F1 as [F1 F2]. split; [intros c Q; apply F1, INV, Q|]. intros i. rewrite F2.
              split; intros [c [Q I]]; exists c; split; try exact I; apply INV; exact Q.
        -- cbn [bind]. apply FIN; [apply post_refl, C|]. apply NONE. intros c Q.
           inversion Q as [? nd' ? us' u N1 O1 I1|? nd' ? s2 o2 ? N1 O1 D1 F1]; subst; rewrite NS in N1; injection N1 as <-; congruence.
    + cbn [bind]. apply FIN; [apply post_refl, C|]. apply NONE. intros c Q.
      inversion Q; subst; congruence.
  - (* addCall *)
    intros c st C IU F. cbn [addCall]. destruct (lookup (callId_ st) c) as [i|] eqn:LC.
    { exists i, st. split; [reflexivity|]. split; [apply post_refl, C|]. apply (ci_id _ C), LC. }
    assert (NI : ~ In c (calls_ st)).
    { intros H. apply in_cidx in H. destruct H as [i H]. apply (ci_id _ C) in H. congruence. }
    cbn [addNode]. destruct (ci_g _ C) as [a [W L]].
    set (id := length (roots_ (dg st))). assert (IDL : id = length (calls_ st)) by (unfold id; rewrite (gw_roots _ _ W); exact L).
    set (g1 := mkG (roots_ (dg st) ++ [true]) (children_ (dg st) ++ [[]]) (edges_ (dg st))).
    set (st0 := mkCG ((c, id) :: callId_ st) (calls_ st ++ [c]) g1 (visited_ st)).
    assert (X0 : ext st st0) by (split; [exists [c]; reflexivity|apply incl_refl]).
    assert (I0 : cidx st0 id c).
    { unfold cidx. cbn [calls_ st0]. rewrite IDL, nth_error_app2, Nat.sub_diag by lia. reflexivity. }
    assert (INV0 : forall i d, cidx st0 i d <-> cidx st i d \/ (i = id /\ d = c)).
    { intros i d. split.
      - intros H. destruct (lt_dec i (length (calls_ st))) as [LT|GE].
        + left. unfold cidx in *. cbn [calls_ st0] in H. rewrite nth_error_app1 in H by exact LT. exact H.
        + right. assert (i < length (calls_ st0)) by (eapply cidx_lt; eauto). cbn [calls_ st0] in H0. rewrite app_length in H0. simpl in H0.
          assert (i = id) by lia. split; [exact H1|]. subst i. eapply cidx_fun; [exact H|exact I0].
      - intros [H|[-> ->]]; [eapply cidx_ext; eauto|exact I0]. }
    assert (C0 : CI st0).
    { constructor.
      - exists (astep a GNode). split; [exact (gwf_addNode _ _ W)|]. cbn [calls_ st0 an astep]. rewrite app_length. simpl. lia.
      - cbn [calls_ st0]. apply NoDup_snoc; [apply (ci_nd _ C)|exact NI].
      - intros d i. rewrite INV0. cbn [callId_ st0 lookup]. destruct (pair_eqb c d) eqn:Q.
        + apply pair_eqb_spec in Q. subst d. split.
          * intros [= <-]. auto.
          * intros [H|[-> _]]; [|reflexivity]. elim NI. eapply cidx_in; eauto.
        + rewrite (ci_id _ C). split; [auto|]. intros [H|[_ ->]]; [exact H|]. rewrite (proj2 (pair_eqb_spec c c) eq_refl) in Q. discriminate.
      - intros i j H. destruct (ci_edge _ C i j H) as [x [y [I [J Q]]]]. exists x, y.
        split; [eapply cidx_ext; eauto|]. split; [eapply cidx_ext; eauto|exact Q].
      - intros s o ids H. assert (FD := ci_vis _ C s o ids H). destruct FD as [F1 F2]. split.
        + intros d Q. eapply in_ext; [exact X0|auto].
        + intros i. rewrite F2. split; intros [d [Q I]]; exists d; (split; [exact Q|]).
          * eapply cidx_ext; eauto.
          * apply INV0 in I. destruct I as [I|[-> ->]]; [exact I|]. elim NI. auto. }
    assert (WL : need st0 + D + 2 <= f).
    { assert (LT : white st0 < white st).
      { apply (filter_len_lt _ _ U c).
        - intros d. destruct (in_dec call_eq_dec d (calls_ st0)) as [H|H]; [discriminate|].
          destruct (in_dec call_eq_dec d (calls_ st)) as [H'|H']; [|auto]. elim H. eapply in_ext; eauto.
        - exact IU.
        - destruct (in_dec call_eq_dec c (calls_ st0)) as [H|H]; [reflexivity|]. elim H. eapply cidx_in; eauto.
        - destruct (in_dec call_eq_dec c (calls_ st)); tauto. }
      unfold need in *. nia. }
    destruct c as [s u]. cbn [fst snd]. destruct (N s) as [nd|] eqn:NS; [|elim (UN _ IU NS)].
    destruct (intLoop_ok f s u id IHc (listOf (intDep nd u)) st0 C0 I0) as [st1 [A1 [P1 L1]]]; [|exact IU|lia|].
    { intros u' H. destruct (intDep nd u) as [us|] eqn:ID; [|destruct H]. eapply dep_int; eauto. }
    rewrite A1. cbn [bind]. assert (X1 : ext st0 st1) by apply P1. assert (C1 : CI st1) by apply P1.
    destruct (inLoop_ok f (s, u) id IHo (listOf (inDep nd u)) st1 C1 (cidx_ext _ _ _ _ X1 I0)) as [st2 [A2 [P2 L2]]]; [|exact IU|pose proof (need_ext _ _ X1); lia|].
    { intros s' os o d H HO Q. destruct (inDep nd u) as [ins|] eqn:ID; [|destruct H]. eapply dep_in; eauto. }
    rewrite A2. cbn [bind]. assert (X2 : ext st1 st2) by apply P2. exists id, st2. split; [reflexivity|].
    assert (I2 : cidx st2 id (s, u)) by (eapply cidx_ext; [exact X2|eapply cidx_ext; eauto]).
    split; [|exact I2]. split; [apply P2|]. split; [eapply ext_trans; [exact X0|eapply ext_trans; eauto]|].
    intros d Q. assert (P12 : post st0 st2 (dep N (s, u))) by (eapply post_trans; eauto).
    destruct P12 as [_ [_ H12]]. destruct (H12 d Q) as [H|[H [c0 [H1 H2]]]].
    + cbn [calls_ st0] in H. apply in_app_or in H. destruct H as [H|[<-|[]]]; [auto|]. right. split.
      * intros e E. inversion E as [? nd' ? us u' N1 D1 J1|? nd' ? ins s' os o ? N1 D1 J1 O1 F1]; subst;
          rewrite NS in N1; injection N1 as <-.
        -- destruct (linkedTo_ext st1 st2 id (s, u') X2) as [j [J K]]; [apply L1; rewrite D1; exact J1|].
           exists id, j. auto.
        -- destruct (L2 s' os o e) as [j [J K]]; [rewrite D1; exact J1|exact O1|exact F1|]. exists id, j. auto.
      * exists (s, u). split; [reflexivity|apply rt_refl].
    + right. split; [exact H|]. exists (s, u). split; [reflexivity|]. eapply rt_trans; [apply rt_step; exact H1|exact H2].
Qed.
End CG.
