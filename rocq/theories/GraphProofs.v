Require Import List Arith Lia Bool Relations Sorting.
Require Import Verif.Base Verif.GraphModel Verif.GraphSpec Verif.ListLemmas.
Import ListNotations.

Definition plt (a b : nat * nat) : Prop := pair_lt a b = true.
Lemma pair_lt_iff a b : plt a b <-> fst a < fst b \/ (fst a = fst b /\ snd a < snd b).
Proof. unfold plt, pair_lt. rewrite orb_true_iff, andb_true_iff, Nat.eqb_eq, !Nat.ltb_lt. tauto. Qed.
Lemma pair_lt_tot a b : pair_lt a b = false -> pair_lt b a = false -> a = b.
Proof.
  intros H K. assert (~ plt a b) by (unfold plt; congruence). assert (~ plt b a) by (unfold plt; congruence).
  rewrite pair_lt_iff in *. destruct a, b. simpl in *. f_equal; lia.
Qed.
Lemma plt_trans a b c : plt a b -> plt b c -> plt a c.
Proof. rewrite !pair_lt_iff. lia. Qed.
Lemma plt_irrefl a : ~ plt a a.
Proof. rewrite pair_lt_iff. lia. Qed.

Lemma insert_In e l x : In x (fst (set_insert e l)) <-> x = e \/ In x l.
Proof.
  induction l as [|y l IH]; simpl; [intuition congruence|].
  destruct (pair_lt e y) eqn:A; simpl; [intuition congruence|].
  destruct (pair_lt y e) eqn:B; simpl.
  - destruct (set_insert e l) as [r b]. simpl in *. rewrite IH. tauto.
  - pose proof (pair_lt_tot e y A B). subst. intuition congruence.
Qed.
Lemma insert_sorted e l : StronglySorted plt l -> StronglySorted plt (fst (set_insert e l)).
Proof.
  induction 1 as [|y l S IH F]; simpl; [repeat constructor|].
  destruct (pair_lt e y) eqn:A; simpl.
  - constructor; [constructor; assumption|]. constructor; [exact A|].
    apply Forall_forall. intros z Z. rewrite Forall_forall in F. eapply plt_trans; [exact A|auto].
  - destruct (pair_lt y e) eqn:B; simpl; [|constructor; assumption].
    assert (I := insert_In e l). destruct (set_insert e l) as [r b]. simpl in *. constructor; [exact IH|].
    apply Forall_forall. intros z Z. apply I in Z. rewrite Forall_forall in F. destruct Z as [->|Z]; [exact B|auto].
Qed.
Lemma insert_flag e l : StronglySorted plt l -> (snd (set_insert e l) = true <-> ~ In e l).
Proof.
  induction 1 as [|y l S IH F]; simpl; [tauto|]. rewrite Forall_forall in F.
  destruct (pair_lt e y) eqn:A; simpl.
  - split; [|reflexivity]. intros _ [->|K].
    + exact (plt_irrefl _ A).
    + apply (plt_irrefl e). eapply plt_trans; [exact A|auto].
  - destruct (pair_lt y e) eqn:B; simpl.
    + destruct (set_insert e l) as [r b]. simpl in *. rewrite IH. split; [|tauto].
      intros N [->|K]; [exact (plt_irrefl _ B)|tauto].
    + pose proof (pair_lt_tot e y A B). subst. split; [discriminate|]. intros N. exfalso. apply N. auto.
Qed.

Definition kids (g : graph) (a : nat) : list nat := nth a (children_ g) [].

Record gwf (g : graph) (a : agraph) : Prop := {
  gw_roots : length (roots_ g) = an a;
  gw_children : length (children_ g) = an a;
  gw_sorted : StronglySorted plt (edges_ g);
  gw_edges : forall x y, In (x, y) (edges_ g) <-> aE a x y;
  gw_range : forall x y, aE a x y -> x < an a /\ y < an a;
  gw_kids : forall x y, In y (kids g x) <-> aE a x y;
  gw_nodup : forall x, NoDup (kids g x);
  gw_root : forall y, nth y (roots_ g) false = true <-> is_root a y }.

Lemma gwf_dec g a x y : gwf g a -> aE a x y \/ ~ aE a x y.
Proof.
  intros W. destruct (in_dec Nat.eq_dec y (kids g x)) as [H|H]; rewrite (gw_kids _ _ W) in H; auto.
Qed.

Lemma gwf_empty : gwf empty_graph aempty.
Proof.
  constructor; simpl; auto; try tauto.
  - constructor.
  - intros x y. unfold kids. simpl. destruct x; simpl; tauto.
  - intros x. unfold kids. simpl. destruct x; constructor.
  - intros y. destruct y; unfold is_root; simpl; split; try discriminate; intros [H _]; lia.
Qed.

Lemma nth_snoc {A} (l : list A) x i d : nth i (l ++ [x]) d = if Nat.eqb i (length l) then x else nth i l d.
Proof.
  destruct (Nat.eqb i (length l)) eqn:E.
  - apply Nat.eqb_eq in E. subst. rewrite app_nth2, Nat.sub_diag by lia. reflexivity.
  - apply Nat.eqb_neq in E. destruct (Nat.lt_ge_cases i (length l)).
    + apply app_nth1. lia.
    + rewrite !nth_overflow; auto; rewrite app_length; simpl; lia.
Qed.

Lemma gwf_addNode g a : gwf g a -> gwf (fst (addNode g)) (astep a GNode).
Proof.
  intros W. assert (LR := gw_roots _ _ W). assert (LC := gw_children _ _ W).
  assert (K : forall x, kids (fst (addNode g)) x = kids g x).
  { intros x. unfold kids, addNode. simpl. rewrite nth_snoc. destruct (Nat.eqb x _) eqn:E; [|reflexivity].
    apply Nat.eqb_eq in E. subst. symmetry. apply nth_overflow. lia. }
  constructor.
  - simpl. rewrite app_length. simpl. lia.
  - simpl. rewrite app_length. simpl. lia.
  - apply (gw_sorted _ _ W).
  - apply (gw_edges _ _ W).
  - intros x y H. apply (gw_range _ _ W) in H. simpl. lia.
  - intros x y. rewrite K. apply (gw_kids _ _ W).
  - intros x. rewrite K. apply (gw_nodup _ _ W).
  - intros y. simpl. rewrite nth_snoc. rewrite LR. destruct (Nat.eqb y (an a)) eqn:E.
    + apply Nat.eqb_eq in E. subst y. split; [intros _|reflexivity]. split; simpl; [lia|].
      intros b H. apply (gw_range _ _ W) in H. lia.
    + apply Nat.eqb_neq in E. rewrite (gw_root _ _ W). unfold is_root. simpl. split; intros [H1 H2]; split; auto; lia.
Qed.

Lemma NoDup_snoc {A} (l : list A) x : NoDup l -> ~ In x l -> NoDup (l ++ [x]).
Proof.
  induction 1 as [|y l N H IH]; simpl; intros K; [constructor; simpl; auto; constructor|].
  constructor; [|apply IH; tauto]. rewrite in_app_iff. simpl. intuition.
Qed.

Lemma addEdge_ok g a f t : gwf g a -> f < an a -> t < an a ->
  exists g' b, addEdge g f t = Ok (g', b) /\ gwf g' (astep a (GEdge f t)) /\ (b = true <-> ~ aE a f t).
Proof.
  intros W F T. assert (LR := gw_roots _ _ W). assert (LC := gw_children _ _ W). unfold addEdge. rewrite LR.
  rewrite (proj2 (Nat.ltb_lt _ _) F), (proj2 (Nat.ltb_lt _ _) T). cbn [andb].
  pose proof (insert_In (f, t) (edges_ g)) as II. pose proof (insert_sorted (f, t) _ (gw_sorted _ _ W)) as IS.
  pose proof (insert_flag (f, t) _ (gw_sorted _ _ W)) as IF.
  destruct (set_insert (f, t) (edges_ g)) as [es b]. cbn [fst snd] in *. rewrite (gw_edges _ _ W) in IF.
  assert (RG : forall x y, aE a x y \/ (x = f /\ y = t) -> x < an a /\ y < an a).
  { intros x y [H|[-> ->]]; [apply (gw_range _ _ W); exact H|auto]. }
  assert (ED : forall x y, In (x, y) es <-> aE a x y \/ (x = f /\ y = t)).
  { intros x y. rewrite II, (gw_edges _ _ W). split; [intros [H|H]; [injection H as -> ->; auto|auto]|intros [H|[-> ->]]; auto]. }
  destruct b.
  - assert (N : ~ aE a f t) by tauto. rewrite (nthR_ok _ f []) by lia. cbn [bind]. eexists _, true.
    split; [reflexivity|]. split; [|tauto].
    assert (K : forall x, kids (mkG (setN (roots_ g) t false) (setN (children_ g) f (nth f (children_ g) [] ++ [t])) es) x
      = if Nat.eqb f x then kids g f ++ [t] else kids g x).
    { intros x. unfold kids. cbn [children_]. apply nth_setN. lia. }
    constructor; cbn [an aE astep].
    + cbn [roots_]. rewrite setN_length. exact LR.
    + cbn [children_]. rewrite setN_length. exact LC.
    + exact IS.
    + exact ED.
    + exact RG.
    + intros x y. rewrite K. destruct (Nat.eqb f x) eqn:E.
      * apply Nat.eqb_eq in E. subst x. rewrite in_app_iff, (gw_kids _ _ W). simpl. intuition.
      * apply Nat.eqb_neq in E. rewrite (gw_kids _ _ W). intuition congruence.
    + intros x. rewrite K. destruct (Nat.eqb f x) eqn:E; [|apply (gw_nodup _ _ W)].
      apply NoDup_snoc; [apply (gw_nodup _ _ W)|]. rewrite (gw_kids _ _ W). exact N.
    + intros y. cbn [roots_]. rewrite nth_setN by lia. unfold is_root. cbn [an aE].
      destruct (Nat.eqb t y) eqn:E.
      * apply Nat.eqb_eq in E. subst y. split; [discriminate|]. intros [_ H]. exfalso. apply (H f). auto.
      * apply Nat.eqb_neq in E. rewrite (gw_root _ _ W). unfold is_root. split; intros [H1 H2]; (split; [exact H1|]).
        -- intros b [H|[_ H]]; [exact (H2 b H)|congruence].
        -- intros b H. apply (H2 b). auto.
  - assert (N : ~ ~ aE a f t) by (intros C; destruct IF as [_ IF]; specialize (IF C); discriminate).
    assert (EE : aE a f t) by (destruct (gwf_dec g a f t W); tauto).
    eexists _, false. split; [reflexivity|]. split; [|split; [discriminate|tauto]].
    constructor; cbn [an aE astep roots_ children_ edges_].
    + exact LR.
    + exact LC.
    + exact IS.
    + exact ED.
    + exact RG.
    + intros x y. change (In y (kids g x) <-> aE a x y \/ (x = f /\ y = t)). rewrite (gw_kids _ _ W). intuition congruence.
    + intros x. apply (gw_nodup _ _ W).
    + intros y. rewrite (gw_root _ _ W). unfold is_root. cbn [an aE]. split; intros [H1 H2]; (split; [exact H1|]).
      * intros b [H|[-> ->]]; [exact (H2 b H)|exact (H2 f EE)].
      * intros b H. apply (H2 b). auto.
Qed.

(* removal *)
Lemma up_down id x : x <> id -> up id (down id x) = x.
Proof. unfold up, down. intros. destruct (Nat.ltb id x) eqn:A; destruct (Nat.ltb _ id) eqn:B; rewrite ?Nat.ltb_lt, ?Nat.ltb_ge in *; lia. Qed.
Lemma down_up id a : down id (up id a) = a.
Proof. unfold up, down. destruct (Nat.ltb a id) eqn:A; destruct (Nat.ltb id _) eqn:B; rewrite ?Nat.ltb_lt, ?Nat.ltb_ge in *; lia. Qed.
Lemma up_neq id a : up id a <> id.
Proof. unfold up. destruct (Nat.ltb a id) eqn:A; rewrite ?Nat.ltb_lt, ?Nat.ltb_ge in *; lia. Qed.
Lemma up_inj id a b : up id a = up id b -> a = b.
Proof. intros H. rewrite <- (down_up id a), H. apply down_up. Qed.
Lemma up_range id a n : a < n - 1 -> id < n -> up id a < n.
Proof. unfold up. destruct (Nat.ltb a id) eqn:A; rewrite ?Nat.ltb_lt, ?Nat.ltb_ge in *; lia. Qed.
Lemma up_range' id a n : up id a < n -> id < n -> a < n - 1.
Proof. unfold up. destruct (Nat.ltb a id) eqn:A; rewrite ?Nat.ltb_lt, ?Nat.ltb_ge in *; lia. Qed.

Lemma edgesWithout_spec id es : StronglySorted plt (edgesWithout id es) /\
  forall x y, In (x, y) (edgesWithout id es) <-> In (up id x, up id y) es.
Proof.
  unfold edgesWithout.
  assert (G : forall es acc, StronglySorted plt acc ->
    StronglySorted plt (fold_left (fun acc e => if Nat.eqb (fst e) id || Nat.eqb (snd e) id then acc
      else fst (set_insert (down id (fst e), down id (snd e)) acc)) es acc) /\
    forall x y, In (x, y) (fold_left (fun acc e => if Nat.eqb (fst e) id || Nat.eqb (snd e) id then acc
      else fst (set_insert (down id (fst e), down id (snd e)) acc)) es acc) <-> In (x, y) acc \/ In (up id x, up id y) es).
  { clear es. induction es as [|[p q] es IH]; intros acc S; cbn [fold_left]; [simpl; split; [exact S|tauto]|].
    cbn [fst snd]. destruct (Nat.eqb p id || Nat.eqb q id) eqn:E.
    - destruct (IH acc S) as [S' I']. split; [exact S'|]. intros x y. rewrite I'. simpl.
      apply orb_true_iff in E. rewrite !Nat.eqb_eq in E.
      split; [tauto|]. intros [H|[H|H]]; auto. injection H as H1 H2.
      pose proof (up_neq id x). pose proof (up_neq id y). destruct E; congruence.
    - apply orb_false_iff in E. rewrite !Nat.eqb_neq in E. destruct E as [Ep Eq].
      destruct (IH _ (insert_sorted (down id p, down id q) acc S)) as [S' I']. split; [exact S'|].
      intros x y. rewrite I', insert_In. simpl. split.
      + intros [[H|H]|H]; auto. injection H as -> ->. rewrite !up_down by assumption. auto.
      + intros [H|[H|H]]; auto. injection H as -> ->. rewrite !down_up. auto. }
  destruct (G es [] (SSorted_nil _)) as [S I]. split; [exact S|]. intros x y. rewrite I. simpl. tauto.
Qed.

Lemma promote_spec id es cs : forall roots, (forall c, In c cs -> c < length roots) ->
  length (promote id es cs roots) = length roots /\
  forall j, nth (up id j) (promote id es cs roots) false = true <->
    nth (up id j) roots false = true \/ (In (up id j) cs /\ forall x, ~ In (x, j) es).
Proof.
  unfold promote. induction cs as [|c cs IH]; intros roots B; cbn [fold_left]; [simpl; split; [reflexivity|intros; tauto]|].
  set (p := existsb _ es).
  assert (P : forall j, c = up id j -> (p = true <-> exists x, In (x, j) es)).
  { intros j J. unfold p. rewrite existsb_exists. split.
    - intros [[x y] [I H]]. cbn [snd] in H. exists x. replace j with y; [exact I|].
      subst c. apply (up_inj id). unfold up in H |- *.
      destruct (Nat.ltb_spec j id).
      + rewrite (proj2 (Nat.ltb_ge id j)) in H by lia. apply Nat.eqb_eq in H. subst y.
        rewrite (proj2 (Nat.ltb_lt j id)) by lia. reflexivity.
      + rewrite (proj2 (Nat.ltb_lt id (S j))) in H by lia. apply Nat.eqb_eq in H. replace y with j by lia.
        rewrite (proj2 (Nat.ltb_ge j id)) by lia. reflexivity.
    - intros [x I]. exists (x, j). split; [exact I|]. cbn [snd]. subst c. unfold up.
      destruct (Nat.ltb_spec j id).
      + rewrite (proj2 (Nat.ltb_ge id j)) by lia. apply Nat.eqb_refl.
      + rewrite (proj2 (Nat.ltb_lt id (S j))) by lia. apply Nat.eqb_eq. lia. }
  destruct p.
  - destruct (IH roots) as [L I]; [intros; apply B; simpl; auto|]. split; [exact L|].
    intros j. rewrite I. simpl. split; [tauto|]. intros [H|[[H|H] N]]; auto.
    destruct (proj1 (P j H) eq_refl) as [x X]. exfalso. exact (N x X).
  - assert (C : c < length roots) by (apply B; simpl; auto).
    destruct (IH (setN roots c true)) as [L I]; [intros; rewrite setN_length; apply B; simpl; auto|].
    split; [rewrite L; apply setN_length|].
    intros j. rewrite I, nth_setN by exact C. simpl. destruct (Nat.eqb c (up id j)) eqn:E.
    + apply Nat.eqb_eq in E. split; [intros _; right; split; [auto|]|auto].
      intros x X. assert (false = true) by (apply (P j E); eauto). discriminate.
    + apply Nat.eqb_neq in E. intuition congruence.
Qed.

Lemma childrenWithout_spec id cs y : In y (childrenWithout id cs) <-> In (up id y) cs.
Proof.
  induction cs as [|c cs IH]; simpl; [tauto|]. destruct (Nat.ltb id c) eqn:A.
  - simpl. rewrite IH. apply Nat.ltb_lt in A. split; intros [H|H]; auto; left.
    + rewrite <- H. unfold up. destruct (Nat.ltb (c - 1) id) eqn:B; rewrite ?Nat.ltb_lt, ?Nat.ltb_ge in *; lia.
    + unfold up in H. destruct (Nat.ltb y id) eqn:B; rewrite ?Nat.ltb_lt, ?Nat.ltb_ge in *; lia.
  - apply Nat.ltb_ge in A. destruct (Nat.eqb c id) eqn:B.
    + apply Nat.eqb_eq in B. rewrite IH. split; [auto|]. intros [H|H]; auto. pose proof (up_neq id y). congruence.
    + apply Nat.eqb_neq in B. simpl. rewrite IH. split; intros [H|H]; auto; left.
      * subst y. unfold up. destruct (Nat.ltb c id) eqn:D; rewrite ?Nat.ltb_lt, ?Nat.ltb_ge in *; lia.
      * unfold up in H. destruct (Nat.ltb y id) eqn:D; rewrite ?Nat.ltb_lt, ?Nat.ltb_ge in *; lia.
Qed.
Lemma childrenWithout_nodup id cs : NoDup cs -> NoDup (childrenWithout id cs).
Proof.
  induction 1 as [|c cs N H IH]; simpl; [constructor|]. destruct (Nat.ltb id c) eqn:A.
  - constructor; [|exact IH]. rewrite childrenWithout_spec. apply Nat.ltb_lt in A.
    replace (up id (c - 1)) with c; [exact N|]. unfold up. destruct (Nat.ltb (c - 1) id) eqn:B; rewrite ?Nat.ltb_lt, ?Nat.ltb_ge in *; lia.
  - apply Nat.ltb_ge in A. destruct (Nat.eqb c id) eqn:B; [exact IH|]. apply Nat.eqb_neq in B.
    constructor; [|exact IH]. rewrite childrenWithout_spec.
    replace (up id c) with c; [exact N|]. unfold up. destruct (Nat.ltb c id) eqn:D; rewrite ?Nat.ltb_lt, ?Nat.ltb_ge in *; lia.
Qed.

Lemma removeNode_ok g a id : gwf g a -> id < an a ->
  exists g', removeNode g id = Ok g' /\ gwf g' (astep a (GRemove id)).
Proof.
  intros W H. assert (LR := gw_roots _ _ W). assert (LC := gw_children _ _ W). unfold removeNode. rewrite LR.
  rewrite (proj2 (Nat.ltb_lt _ _) H). rewrite (nthR_ok _ id []) by lia. cbn [bind]. fold (kids g id).
  destruct (edgesWithout_spec id (edges_ g)) as [ES EI]. set (es := edgesWithout id (edges_ g)) in *.
  destruct (promote_spec id es (kids g id) (roots_ g)) as [PL PI].
  { intros c C. apply (gw_kids _ _ W) in C. apply (gw_range _ _ W) in C. lia. }
  eexists. split; [reflexivity|].
  assert (K : forall x, kids (mkG (delN id (promote id es (kids g id) (roots_ g))) (delN id (map (childrenWithout id) (children_ g))) es) x
    = childrenWithout id (kids g (up id x))).
  { intros x. unfold kids. cbn [children_]. rewrite nth_delN by (rewrite map_length; lia).
    fold (up id x). change (@nil nat) with (childrenWithout id []) at 1. rewrite map_nth. reflexivity. }
  constructor; cbn [an aE astep].
  - cbn [roots_]. rewrite delN_length; lia.
  - cbn [children_]. rewrite delN_length; rewrite map_length; lia.
  - exact ES.
  - intros x y. cbn [edges_]. rewrite EI. apply (gw_edges _ _ W).
  - intros x y E. apply (gw_range _ _ W) in E. destruct E as [E1 E2].
    split; eapply up_range'; eassumption.
  - intros x y. rewrite K, childrenWithout_spec. apply (gw_kids _ _ W).
  - intros x. rewrite K. apply childrenWithout_nodup. apply (gw_nodup _ _ W).
  - intros y. cbn [roots_]. rewrite nth_delN by lia. fold (up id y). rewrite PI, (gw_root _ _ W), (gw_kids _ _ W).
    unfold is_root. cbn [an aE]. split.
    + intros [[R1 R2]|[R1 R2]].
      * split; [eapply up_range'; eassumption|]. intros b. apply R2.
      * apply (gw_range _ _ W) in R1. split; [eapply up_range'; [apply R1|exact H]|].
        intros b B. apply (R2 b). apply EI. apply (gw_edges _ _ W). exact B.
    + intros [R1 R2]. destruct (gwf_dec g a id (up id y) W) as [D|D].
      * right. split; [exact D|]. intros x X. apply (R2 x). apply (gw_edges _ _ W), EI. exact X.
      * left. split; [apply up_range; assumption|]. intros b B. destruct (Nat.eq_dec b id) as [->|N]; [tauto|].
        apply (R2 (down id b)). rewrite up_down by exact N. exact B.
Qed.

Lemma grun_ok h : forall g a, gwf g a -> valid a h -> exists g', grun g h = Ok g' /\ gwf g' (aruns a h).
Proof.
  induction h as [|o h IH]; intros g a W V; simpl; [eauto|]. destruct V as [V1 V2]. destruct o; simpl in *.
  - apply IH; [apply (gwf_addNode g a W)|exact V2].
  - destruct (addEdge_ok g a from to W (proj1 V1) (proj2 V1)) as [g' [b [E [W' _]]]]. rewrite E. cbn [bind].
    apply IH; assumption.
  - destruct (removeNode_ok g a id W V1) as [g' [E W']]. rewrite E. cbn [bind]. apply IH; assumption.
  - apply IH; [exact gwf_empty|exact V2].
Qed.
Lemma grun_invalid h : forall g a, gwf g a -> ~ valid a h -> grun g h = UB.
Proof.
  induction h as [|o h IH]; intros g a W V; simpl in *; [tauto|]. destruct o; simpl in *.
  - apply (IH _ (astep a GNode)); [apply (gwf_addNode g a W)|tauto].
  - destruct (lt_dec from (an a)) as [F|F]; [destruct (lt_dec to (an a)) as [T|T]|].
    + destruct (addEdge_ok g a from to W F T) as [g' [b [E [W' _]]]]. rewrite E. cbn [bind].
      eapply IH; [exact W'|tauto].
    + unfold addEdge. rewrite (gw_roots _ _ W). rewrite (proj2 (Nat.ltb_ge to (an a))) by lia. rewrite andb_false_r. reflexivity.
    + unfold addEdge. rewrite (gw_roots _ _ W). rewrite (proj2 (Nat.ltb_ge from (an a))) by lia. reflexivity.
  - destruct (lt_dec id (an a)) as [F|F].
    + destruct (removeNode_ok g a id W F) as [g' [E W']]. rewrite E. cbn [bind]. eapply IH; [exact W'|tauto].
    + unfold removeNode. rewrite (gw_roots _ _ W). rewrite (proj2 (Nat.ltb_ge id (an a))) by lia. reflexivity.
  - apply (IH empty_graph aempty gwf_empty). intros C. apply V. split; [exact I|exact C].
Qed.
