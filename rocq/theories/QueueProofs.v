From Coq Require Import List Bool Arith Lia.
Import ListNotations.
From Verif Require Import Base QueueModel QueueSpec.

Definition proj (t : nat) (l : list event) : list etype :=
  map e_type (filter (fun e => e_emitter e =? t) l).
Lemma proj_app t a b : proj t (a ++ b) = proj t a ++ proj t b.
Proof. unfold proj. now rewrite filter_app, map_app. Qed.

(* per-task automaton *)
Record ast := mkAst { a_in : bool; a_w : bool * bool; a_rem : bool }.
Definition astep (s : ast) (y : etype) : ast :=
  match y with
  | WeightChange => mkAst (a_in s) (true, snd (a_w s)) (a_rem s)
  | AnisotropicWeightChange => mkAst (a_in s) (fst (a_w s), true) (a_rem s)
  | TaskAddition => mkAst true (false, false) (a_rem s)
  | TaskRemoval => mkAst false (false, false) true
  | _ => s
  end.
Definition arun (b : bool) (l : list etype) : ast := fold_left astep l (mkAst b (false, false) false).
Definition aok (s : ast) (y : etype) : Prop :=
  match y with
  | TaskAddition => a_in s = false
  | TaskRemoval | WeightChange | AnisotropicWeightChange => a_in s = true
  | _ => False
  end.
Definition isW (y : etype) : bool := match y with WeightChange | AnisotropicWeightChange => true | _ => false end.

Definition inb (t : nat) (S : list nat) : bool := existsb (Nat.eqb t) S.
Lemma inb_in t S : inb t S = true <-> In t S.
Proof. unfold inb. rewrite existsb_exists. split. { intros (x & I & E). apply Nat.eqb_eq in E. now subst. } exists t. rewrite Nat.eqb_refl. auto. Qed.

Lemma tasks_aut t l : forall S s, inb t S = a_in s ->
  inb t (tasksAfter S l) = a_in (fold_left astep (proj t l) s).
Proof.
  induction l as [|e l IH]; intros S s H; [exact H|].
  unfold proj. simpl. destruct (Nat.eqb_spec (e_emitter e) t) as [E|D]; simpl.
  - apply IH. unfold tasks1. destruct (e_type e); simpl; auto.
    + rewrite E, Nat.eqb_refl. reflexivity.
    + destruct (inb t (filter _ S)) eqn:F; [|auto]. apply inb_in, filter_In in F as [_ F].
      rewrite E, Nat.eqb_refl in F. discriminate.
  - apply IH. rewrite <- H. unfold tasks1. destruct (e_type e); auto.
    + simpl. destruct (Nat.eqb_spec t (e_emitter e)); [congruence|]. reflexivity.
    + destruct (inb t S) eqn:F.
      * apply inb_in. apply filter_In. split; [now apply inb_in|]. destruct (Nat.eqb_spec t (e_emitter e)); [congruence|reflexivity].
      * destruct (inb t (filter _ S)) eqn:G; [|auto]. apply inb_in, filter_In in G as [G _]. apply inb_in in G. congruence.
Qed.
Lemma changes_aut t l : forall w s, w = a_w s ->
  fold_left (changes1 t) l w = a_w (fold_left astep (proj t l) s).
Proof.
  induction l as [|e l IH]; intros w s H; [exact H|].
  unfold proj. simpl. unfold changes1 at 2. destruct (Nat.eqb_spec (e_emitter e) t) as [E|D]; simpl.
  - apply IH. destruct (e_type e); simpl; subst w; auto.
  - apply IH. exact H.
Qed.
Lemma rem_aut l : forall s, a_rem (fold_left astep l s) = true <-> a_rem s = true \/ In TaskRemoval l.
Proof.
  induction l as [|y l IH]; intros s; simpl; [tauto|]. rewrite IH. destruct y; simpl; intuition (try discriminate; auto).
Qed.

(* validity, per task *)
Fixpoint avalid (s : ast) (l : list etype) : Prop :=
  match l with [] => True | y :: l' => aok s y /\ avalid (astep s y) l' end.
Definition taskT (y : etype) : bool := match y with SubstitutionAddition | SubstitutionRemoval => false | _ => true end.
Lemma valid_aut t l : forall S s, valid S l -> inb t S = a_in s ->
  (forall y, In y (proj t l) -> taskT y = true) -> avalid s (proj t l).
Proof.
  induction l as [|e l IH]; intros S s V H T; [exact I|]. destruct V as [V1 V2].
  unfold proj in *. simpl in *. destruct (Nat.eqb_spec (e_emitter e) t) as [E|D]; simpl in *.
  - split.
    + rewrite E in V1. unfold aok. specialize (T (e_type e) (or_introl eq_refl)).
      destruct (e_type e); try discriminate; rewrite <- H; try (now apply inb_in).
      destruct (inb t S) eqn:F; [exfalso; now apply V1, inb_in|auto].
    + eapply IH; [exact V2| |auto].
      pose proof (tasks_aut t [e] S s H) as Q. unfold proj in Q. simpl in Q. rewrite E, Nat.eqb_refl in Q. exact Q.
  - eapply IH; [exact V2| |auto].
    pose proof (tasks_aut t [e] S s H) as Q. unfold proj in Q. simpl in Q.
    destruct (Nat.eqb_spec (e_emitter e) t); [congruence|]. exact Q.
Qed.

Lemma avalid_app a : forall s b, avalid s (a ++ b) <-> avalid s a /\ avalid (fold_left astep a s) b.
Proof. induction a as [|y a IH]; intros s b; simpl; [tauto|]. rewrite IH. tauto. Qed.

(* the shape of the queue for one task *)
Inductive shape : bool -> bool -> list etype -> Prop :=
| sh_kept ws : forallb isW ws = true -> shape true true ws
| sh_gone : shape true false [TaskRemoval]
| sh_again ws : forallb isW ws = true -> shape true true (TaskRemoval :: TaskAddition :: ws)
| sh_none : shape false false []
| sh_new ws : forallb isW ws = true -> shape false true (TaskAddition :: ws).

Lemma isW_snoc ws y : forallb isW ws = true -> isW y = true -> forallb isW (ws ++ [y]) = true.
Proof. intros A B. rewrite forallb_app, A. simpl. now rewrite B. Qed.

(* purge on projections *)
Definition nadd (t : nat) (q : list event) : nat := length (filter isAddition (proj t q)).
Lemma proj_cons_ne e t q : e_emitter e <> t -> proj t (e :: q) = proj t q.
Proof. intros D. unfold proj. simpl. destruct (Nat.eqb_spec (e_emitter e) t); [contradiction|auto]. Qed.
Lemma proj_cons_eq e t q : e_emitter e = t -> proj t (e :: q) = e_type e :: proj t q.
Proof. intros <-. unfold proj. simpl. now rewrite Nat.eqb_refl. Qed.
Lemma purge_false t q : nadd t q = 0 ->
  exists q', purge t q false = Ok (q', false) /\ proj t q' = filter isRemoval (proj t q) /\
             forall u, u <> t -> proj u q' = proj u q.
Proof.
  induction q as [|e q IH]; intros N; simpl; [eauto|].
  destruct (Nat.eqb_spec (e_emitter e) t) as [E|D]; simpl.
  - unfold nadd in N. rewrite proj_cons_eq in * by exact E. simpl in N.
    destruct (isRemoval (e_type e)) eqn:R; simpl.
    + destruct (e_type e) eqn:T; try discriminate. destruct (IH N) as (q' & -> & P1 & P2). simpl.
      eexists. split; [reflexivity|]. split; [rewrite proj_cons_eq by exact E; rewrite T; simpl; now rewrite P1|].
      intros u U. rewrite !proj_cons_ne by congruence. auto.
    + destruct (isAddition (e_type e)) eqn:A; [discriminate|]. destruct (IH N) as (q' & -> & P1 & P2).
      eexists. split; [reflexivity|]. split; [simpl; now rewrite R|].
      intros u U. rewrite proj_cons_ne by congruence. auto.
  - unfold nadd in N. rewrite proj_cons_ne in * by exact D. destruct (IH N) as (q' & -> & P1 & P2). simpl.
    eexists. split; [reflexivity|]. split; [now rewrite proj_cons_ne by exact D|].
    intros u U. unfold proj. simpl. specialize (P2 u U). unfold proj in P2. destruct (e_emitter e =? u); simpl; congruence.
Qed.
Lemma purge_true t q : nadd t q <= 1 ->
  exists q', purge t q true = Ok (q', nadd t q =? 0) /\ proj t q' = filter isRemoval (proj t q) /\
             forall u, u <> t -> proj u q' = proj u q.
Proof.
  induction q as [|e q IH]; intros N; simpl; [eauto|].
  destruct (Nat.eqb_spec (e_emitter e) t) as [E|D]; simpl.
  - unfold nadd in *. rewrite proj_cons_eq in * by exact E. simpl in N |- *.
    destruct (isRemoval (e_type e)) eqn:R; simpl.
    + destruct (e_type e) eqn:T; try discriminate. simpl in N |- *. destruct (IH N) as (q' & -> & P1 & P2). simpl.
      eexists. split; [reflexivity|]. split; [rewrite proj_cons_eq by exact E; rewrite T; simpl; now rewrite P1|].
      intros u U. rewrite !proj_cons_ne by congruence. auto.
    + destruct (isAddition (e_type e)) eqn:A.
      * simpl in N |- *. destruct (purge_false t q) as (q' & -> & P1 & P2); [unfold nadd; lia|].
        eexists. split; [reflexivity|]. split; [exact P1|]. intros u U. rewrite proj_cons_ne by congruence. auto.
      * destruct (IH N) as (q' & -> & P1 & P2). eexists. split; [reflexivity|]. split; [exact P1|].
        intros u U. rewrite proj_cons_ne by congruence. auto.
  - unfold nadd in *. rewrite proj_cons_ne in * by exact D. destruct (IH N) as (q' & -> & P1 & P2). simpl.
    eexists. split; [reflexivity|]. split; [now rewrite proj_cons_ne by exact D|].
    intros u U. unfold proj. simpl. specialize (P2 u U). unfold proj in P2. destruct (e_emitter e =? u); simpl; congruence.
Qed.

Lemma filter_isW_rem ws : forallb isW ws = true -> filter isRemoval ws = [] /\ filter isAddition ws = [].
Proof. induction ws as [|y ws IH]; simpl; [auto|]. intros H. apply andb_prop in H as [H1 H2]. destruct y; try discriminate; auto. Qed.
Lemma arun_ws ws : forall s, forallb isW ws = true -> a_in (fold_left astep ws s) = a_in s.
Proof. induction ws as [|y ws IH]; intros s; simpl; [auto|]. intros H. apply andb_prop in H as [H1 H2]. rewrite IH by auto. destruct y; try discriminate; auto. Qed.
Lemma shape_in b p qt : shape b p qt -> a_in (arun b qt) = p.
Proof. intros []; unfold arun; simpl; auto; now rewrite arun_ws. Qed.
Lemma rem_ws ws : forall s, forallb isW ws = true -> a_rem (fold_left astep ws s) = a_rem s.
Proof. induction ws as [|y ws IH]; intros s; simpl; [auto|]. intros H. apply andb_prop in H as [H1 H2]. rewrite IH by auto. destruct y; try discriminate; auto. Qed.

(* relation between the history of a task and its queue; [b]: in the memory at the start *)
Definition same (b : bool) (h qt : list etype) : Prop :=
  a_in (arun b h) = a_in (arun b qt) /\ a_w (arun b h) = a_w (arun b qt) /\
  (b = true -> (In TaskRemoval h <-> In TaskRemoval qt)) /\ shape b (a_in (arun b h)) qt.

Definition sub_emit (s : nat) (l : list event) : Prop := forall e, In e l -> e_emitter e = s -> isSub e = true.

Section Run.
Variable S : list nat.
Definition Inv (l q : list event) : Prop :=
  (forall t, (forall y, In y (proj t l) -> taskT y = true) -> same (inb t S) (proj t l) (proj t q)) /\
  (forall t, ~ In TaskRemoval (proj t l) -> proj t q = proj t l).

Lemma arun_snoc b l y : arun b (l ++ [y]) = astep (arun b l) y.
Proof. unfold arun. now rewrite fold_left_app. Qed.
Lemma nil_ws : forallb isW [] = true. Proof. reflexivity. Qed.

Lemma same_snoc b h qt y : same b h qt -> aok (arun b h) y -> y <> TaskRemoval ->
  same b (h ++ [y]) (qt ++ [y]).
Proof.
  intros (A & W & R & Sh) K N. unfold same. rewrite !arun_snoc.
  destruct y; simpl in *; try contradiction.
  - split; [auto|]. split; [now rewrite W|]. split; [intros Bt; rewrite !in_app_iff, (R Bt); tauto|].
    rewrite K in *. inversion Sh; subst; simpl; constructor; apply isW_snoc; auto.
  - split; [auto|]. split; [now rewrite W|]. split; [intros Bt; rewrite !in_app_iff, (R Bt); tauto|].
    rewrite K in *. inversion Sh; subst; simpl; constructor; apply isW_snoc; auto.
  - split; [auto|]. split; [auto|]. split; [intros Bt; rewrite !in_app_iff, (R Bt); tauto|].
    rewrite K in *. inversion Sh; subst; simpl; constructor; reflexivity.
Qed.
Lemma same_rem b h qt : same b h qt -> aok (arun b h) TaskRemoval ->
  length (filter isAddition qt) <= 1 /\
  same b (h ++ [TaskRemoval]) (filter isRemoval qt ++ (if length (filter isAddition qt) =? 0 then [TaskRemoval] else [])).
Proof.
  intros (A & W & R & Sh) K. simpl in K. unfold same. rewrite arun_snoc. simpl.
  rewrite K in Sh. inversion Sh as [ws Hw|H0|ws Hw|H0|ws Hw]; subst; simpl.
  - destruct (filter_isW_rem _ Hw) as [-> ->]. simpl. split; [lia|]. split; [auto|]. split; [auto|].
    split; [|constructor]. intros _. split; intros _; [now left|]. apply in_app_iff. right. now left.
  - destruct (filter_isW_rem _ Hw) as [-> ->]. simpl. split; [lia|]. split; [auto|]. split; [auto|].
    split; [|constructor]. intros _. split; intros _; [now left|]. apply in_app_iff. right. now left.
  - destruct (filter_isW_rem _ Hw) as [-> ->]. simpl. split; [lia|]. split; [auto|]. split; [auto|]. split; [discriminate|constructor].
Qed.

Lemma avalid_last b h y : avalid (mkAst b (false, false) false) (h ++ [y]) -> aok (arun b h) y.
Proof. rewrite avalid_app. simpl. unfold arun. tauto. Qed.

Lemma step l q e : Inv l q -> valid S (l ++ [e]) -> addresses (l ++ [e]) ->
  exists q', addEvent q e = Ok q' /\ Inv (l ++ [e]) q'.
Proof.
  intros [I1 I2] V AD.
  assert (PE : forall t, t <> e_emitter e -> proj t (l ++ [e]) = proj t l).
  { intros t D. rewrite proj_app, (proj_cons_ne e t []) by congruence. apply app_nil_r. }
  assert (PS : proj (e_emitter e) (l ++ [e]) = proj (e_emitter e) l ++ [e_type e]).
  { rewrite proj_app, (proj_cons_eq e _ []) by reflexivity. reflexivity. }
  unfold addEvent. destruct (isRemoval (e_type e)) eqn:RM.
  - destruct (e_type e) eqn:T; try discriminate. clear RM.
    assert (TT : forall y, In y (proj (e_emitter e) l) -> taskT y = true).
    { intros y Iy. unfold proj in Iy. apply in_map_iff in Iy as (e0 & <- & I0). apply filter_In in I0 as [I0 E0].
      apply Nat.eqb_eq in E0. destruct (taskT (e_type e0)) eqn:X; [auto|]. exfalso.
      apply (AD e0 e); [apply in_app_iff; auto|apply in_app_iff; right; now left| | |exact E0].
      - unfold isSub. destruct (e_type e0); simpl in X; congruence.
      - unfold isSub. now rewrite T. }
    assert (K : aok (arun (inb (e_emitter e) S) (proj (e_emitter e) l)) TaskRemoval).
    { apply avalid_last. rewrite <- PS. apply (valid_aut _ _ S); auto.
      rewrite PS. intros y Y. apply in_app_iff in Y as [Y|[<-|[]]]; [auto|reflexivity]. }
    destruct (same_rem _ _ _ (I1 _ TT) K) as [N1 SM].
    destruct (purge_true (e_emitter e) q N1) as (q' & -> & P1 & P2). simpl.
    eexists. split; [reflexivity|]. split.
    + intros t Ht. destruct (Nat.eq_dec t (e_emitter e)) as [->|D].
      * rewrite PS, <- P1 in *. unfold nadd. destruct (_ =? 0).
        -- rewrite proj_app, (proj_cons_eq e _ []), T by reflexivity. exact SM.
        -- now rewrite app_nil_r in SM.
      * rewrite PE in * by exact D. replace (proj t (if nadd (e_emitter e) q =? 0 then q' ++ [e] else q')) with (proj t q); auto.
        rewrite <- (P2 t D). destruct (_ =? 0); [|auto].
        rewrite proj_app, (proj_cons_ne e t []) by congruence. unfold proj at 3. simpl. now rewrite app_nil_r.
    + intros t Ht. destruct (Nat.eq_dec t (e_emitter e)) as [->|D].
      * exfalso. apply Ht. rewrite PS. apply in_app_iff. right. now left.
      * rewrite PE in * by exact D. rewrite <- I2, <- (P2 t D) by auto. destruct (_ =? 0); [|auto].
        rewrite proj_app, (proj_cons_ne e t []) by congruence. unfold proj at 2. simpl. now rewrite app_nil_r.
  - eexists. split; [reflexivity|]. split.
    + intros t Ht. destruct (Nat.eq_dec t (e_emitter e)) as [->|D].
      * rewrite PS in *. rewrite (proj_app _ q), (proj_cons_eq e _ []) by reflexivity. apply same_snoc.
        -- apply I1. intros y Y. apply Ht, in_app_iff. auto.
        -- apply avalid_last. rewrite <- PS. apply (valid_aut _ _ S); auto. rewrite PS. auto.
        -- intros X. rewrite X in RM. discriminate.
      * rewrite PE in * by exact D. rewrite proj_app, (proj_cons_ne e t []) by congruence. unfold proj at 3. simpl. rewrite app_nil_r. auto.
    + intros t Ht. rewrite !proj_app in *. rewrite I2; [reflexivity|]. intros X. apply Ht, in_app_iff. auto.
Qed.
Lemma valid_prefix a : forall S b, valid S (a ++ b) -> valid S a.
Proof. induction a as [|e a IH]; intros S0 b; simpl; [auto|]. intros [X Y]. split; [auto|]. eapply IH; eauto. Qed.
Lemma addEvents_app q a : forall b, addEvents q (a ++ b) = (do q' <- addEvents q a; addEvents q' b).
Proof. revert q. induction a as [|e a IH]; intros q b; simpl; [auto|]. destruct (addEvent q e); simpl; auto. Qed.
Lemma run l : valid S l -> addresses l -> exists q, queue l = Ok q /\ Inv l q.
Proof.
  induction l as [|e l IH] using rev_ind; intros V AD.
  - exists []. split; [reflexivity|]. split; [|auto]. intros t _. unfold same, proj; simpl.
    repeat split; auto. destruct (inb t S); simpl; [apply sh_kept; reflexivity|constructor].
  - destruct IH as (q & E & I). { eapply valid_prefix; eauto. }
    { intros a b Ia Ib. apply AD; apply in_app_iff; auto. }
    destruct (step l q e I V AD) as (q' & E' & I'). exists q'. split; [|exact I'].
    unfold queue in *. rewrite addEvents_app, E. simpl. rewrite E'. reflexivity.
Qed.
End Run.

(* validity of the queue *)
Lemma avalid_valid l : forall S s, (forall t, inb t S = a_in (s t)) ->
  (forall t, Forall (fun y => taskT y = true) (proj t l) -> avalid (s t) (proj t l)) ->
  (forall e e', In e l -> In e' l -> isSub e = true -> isSub e' = false -> e_emitter e <> e_emitter e') ->
  valid S l.
Proof.
  induction l as [|e l IH]; intros S s H A AD; simpl; [auto|]. split.
  - destruct (isSub e) eqn:Sb.
    + unfold isSub in Sb. destruct (e_type e); try discriminate; auto.
    + assert (F : Forall (fun y => taskT y = true) (proj (e_emitter e) (e :: l))).
      { apply Forall_forall. intros y Iy. unfold proj in Iy. apply in_map_iff in Iy as (e0 & <- & I0). apply filter_In in I0 as [I0 E0].
        apply Nat.eqb_eq in E0. destruct (taskT (e_type e0)) eqn:X; [auto|]. exfalso.
        apply (AD e0 e); [auto|now left| |exact Sb|exact E0]. unfold isSub. destruct (e_type e0); simpl in X; congruence. }
      specialize (A _ F). rewrite proj_cons_eq in A by reflexivity. destruct A as [A _]. unfold isSub in Sb.
      destruct (e_type e); try discriminate; simpl in A; rewrite <- H in A; try (now apply inb_in).
      intros X. apply inb_in in X. congruence.
  - apply (IH (tasks1 S e) (fun t => if e_emitter e =? t then astep (s t) (e_type e) else s t)).
    + intros t. pose proof (tasks_aut t [e] S (s t) (H t)) as Q. unfold proj in Q. simpl in Q.
      destruct (e_emitter e =? t); exact Q.
    + intros t F. destruct (Nat.eqb_spec (e_emitter e) t) as [E|D].
      * destruct (taskT (e_type e)) eqn:X.
        -- specialize (A t). rewrite proj_cons_eq in A by exact E. destruct A; [|auto]. constructor; auto.
        -- destruct (proj t l) eqn:PJ; [exact I|]. exfalso.
           assert (Iy : In e0 (proj t l)) by (rewrite PJ; now left). unfold proj in Iy.
           apply in_map_iff in Iy as (e1 & E1 & I1). apply filter_In in I1 as [I1 Et]. apply Nat.eqb_eq in Et.
           apply (AD e e1); [now left|now right| | |congruence].
           ++ unfold isSub. destruct (e_type e); simpl in X; congruence.
           ++ inversion F; subst. unfold isSub. destruct (e_type e1); simpl in *; congruence.
      * specialize (A t). rewrite proj_cons_ne in A by exact D. auto.
    + intros a b Ia Ib. apply AD; now right.
Qed.
Lemma avalid_ws ws : forall s, forallb isW ws = true -> a_in s = true -> avalid s ws.
Proof.
  induction ws as [|y ws IH]; intros s H K; simpl; [auto|]. simpl in H. apply andb_prop in H as [H1 H2].
  split; [destruct y; try discriminate; exact K|]. apply IH; [auto|]. destruct y; try discriminate; exact K.
Qed.
Lemma shape_valid b p qt : shape b p qt -> avalid (mkAst b (false, false) false) qt.
Proof. intros []; simpl; auto; try (now apply avalid_ws); split; auto; try split; auto; now apply avalid_ws. Qed.

Lemma same_gives_in (t : nat) l e : In e l -> In (e_type e) (proj (e_emitter e) l).
Proof. intros I. unfold proj. apply in_map, filter_In. split; [auto|apply Nat.eqb_refl]. Qed.
Lemma proj_in t y l : In y (proj t l) -> In (mkE y t) l.
Proof. unfold proj. intros H. apply in_map_iff in H as (e & <- & H). apply filter_In in H as [H E]. apply Nat.eqb_eq in E. subst t. destruct e; exact H. Qed.

Lemma tasks_only l t : addresses l -> (exists e, In e l /\ e_emitter e = t /\ isSub e = false) ->
  forall y, In y (proj t l) -> taskT y = true.
Proof.
  intros AD (e & Ie & Et & Sb) y Iy. apply proj_in in Iy. destruct (taskT y) eqn:X; [auto|]. exfalso.
  apply (AD (mkE y t) e); auto. destruct y; try discriminate; reflexivity.
Qed.
Lemma task_or_sub l t : addresses l -> (forall y, In y (proj t l) -> taskT y = true) \/ ~ In TaskRemoval (proj t l).
Proof.
  intros AD. destruct (in_dec (ltac:(decide equality) : forall a b : etype, {a = b} + {a <> b}) TaskRemoval (proj t l)) as [H|H]; [|auto].
  left. apply tasks_only; auto. exists (mkE TaskRemoval t). split; [now apply proj_in|auto].
Qed.

Lemma shape_taskT b p qt y : shape b p qt -> In y qt -> taskT y = true.
Proof.
  assert (WS : forall ws, forallb isW ws = true -> In y ws -> taskT y = true).
  { intros ws F J. rewrite forallb_forall in F. specialize (F _ J). destruct y; try discriminate; reflexivity. }
  intros [ws F| |ws F| |ws F] X; simpl in X.
  - eauto.
  - destruct X as [<-|[]]; reflexivity.
  - destruct X as [<-|[<-|X]]; [reflexivity|reflexivity|eauto].
  - destruct X.
  - destruct X as [<-|X]; [reflexivity|eauto].
Qed.
Lemma queue_net S l : valid S l -> addresses l -> exists q, queue l = Ok q /\ valid S q /\
  (forall t, In t (tasksAfter S q) <-> In t (tasksAfter S l)) /\
  (forall t, changes t q = changes t l) /\
  (forall t, In t S -> (In (mkE TaskRemoval t) q <-> In (mkE TaskRemoval t) l)) /\
  (forall e, isSub e = true -> (In e q <-> In e l)).
Proof.
  intros V AD. destruct (run S l V AD) as (q & E & I1 & I2). exists q. split; [exact E|].
  assert (SUB : forall e, isSub e = true -> (In e q <-> In e l)).
  { intros e Sb. assert (NR : ~ In TaskRemoval (proj (e_emitter e) l) \/ forall y, In y (proj (e_emitter e) l) -> taskT y = true).
    { destruct (task_or_sub l (e_emitter e) AD); auto. }
    assert (X : In (e_type e) (proj (e_emitter e) q) <-> In (e_type e) (proj (e_emitter e) l)).
    { destruct NR as [NR|TT]; [now rewrite I2|]. split; intros X; exfalso.
      - destruct (I1 _ TT) as (_ & _ & _ & Sh). unfold isSub in Sb.
        pose proof (shape_taskT _ _ _ _ Sh X) as Y.
        destruct (e_type e); discriminate.
      - apply TT in X. unfold isSub in Sb. destruct (e_type e); discriminate. }
    split; intros H.
    - apply (same_gives_in (e_emitter e)) in H. apply X, proj_in in H. destruct e; exact H.
    - apply (same_gives_in (e_emitter e)) in H. apply X, proj_in in H. destruct e; exact H. }
  assert (ADq : forall e e', In e q -> In e' q -> isSub e = true -> isSub e' = false -> e_emitter e <> e_emitter e').
  { intros e e' Ie Ie' Sb Sb' EE.
    assert (Il : In e l) by now apply SUB.
    assert (NR : ~ In TaskRemoval (proj (e_emitter e) l)).
    { destruct (task_or_sub l (e_emitter e) AD) as [TT|H]; [|exact H].
      specialize (TT _ (same_gives_in 0 _ _ Il)). unfold isSub in Sb. destruct (e_type e); discriminate. }
    assert (J : In (mkE (e_type e') (e_emitter e')) l).
    { apply proj_in. rewrite <- EE, <- I2 by exact NR. rewrite EE. now apply (same_gives_in 0). }
    apply (AD e (mkE (e_type e') (e_emitter e'))); auto. }
  split; [|split; [|split; [|split; [|exact SUB]]]].
  - apply (avalid_valid q S (fun t => mkAst (inb t S) (false, false) false)); auto.
    intros t F. destruct (task_or_sub l t AD) as [TT|NR].
    + destruct (I1 t TT) as (_ & _ & _ & Sh). eapply shape_valid; eauto.
    + rewrite I2 in * by exact NR. apply (valid_aut t l S); auto. rewrite Forall_forall in F. exact F.
  - intros t. rewrite <- !inb_in.
    rewrite (tasks_aut t q S (mkAst (inb t S) (false, false) false)), (tasks_aut t l S (mkAst (inb t S) (false, false) false)) by reflexivity.
    destruct (task_or_sub l t AD) as [TT|NR].
    + destruct (I1 t TT) as (A & _). unfold arun in A. now rewrite A.
    + now rewrite I2 by exact NR.
  - intros t. unfold changes.
    rewrite (changes_aut t q _ (mkAst (inb t S) (false, false) false)), (changes_aut t l _ (mkAst (inb t S) (false, false) false)) by reflexivity.
    destruct (task_or_sub l t AD) as [TT|NR].
    + destruct (I1 t TT) as (_ & W & _). unfold arun in W. now rewrite W.
    + now rewrite I2 by exact NR.
  - intros t Hin. assert (X : In TaskRemoval (proj t q) <-> In TaskRemoval (proj t l)).
    { destruct (task_or_sub l t AD) as [TT|NR].
      - destruct (I1 t TT) as (_ & _ & R & _). symmetry. apply R. now apply inb_in.
      - now rewrite I2 by exact NR. }
    split; intros H.
    + apply (same_gives_in 0) in H. simpl in H. apply proj_in. tauto.
    + apply (same_gives_in 0) in H. simpl in H. apply proj_in. tauto.
Qed.

(* how short the queue is *)
Lemma queue_short S l q t : valid S l -> addresses l -> (exists e, In e l /\ e_emitter e = t /\ isSub e = false) ->
  queue l = Ok q ->
  exists r a w, filter (fun e => e_emitter e =? t) q = r ++ a ++ w /\
    (r = [] \/ r = [mkE TaskRemoval t] /\ In t S) /\ (a = [] \/ a = [mkE TaskAddition t]) /\
    Forall (fun e => e_type e = WeightChange \/ e_type e = AnisotropicWeightChange) w.
Proof.
  intros V AD TE E. destruct (run S l V AD) as (q' & E' & I1 & I2). rewrite E in E'. injection E' as <-.
  destruct (I1 t (tasks_only l t AD TE)) as (_ & _ & _ & Sh).
  assert (M : filter (fun e => e_emitter e =? t) q = map (fun y => mkE y t) (proj t q)).
  { unfold proj. clear. induction q as [|e q IH]; simpl; [auto|]. destruct (Nat.eqb_spec (e_emitter e) t) as [E|D]; simpl; [|auto].
    rewrite <- IH. f_equal. destruct e; simpl in *; congruence. }
  assert (WS : forall ws, forallb isW ws = true -> Forall (fun e => e_type e = WeightChange \/ e_type e = AnisotropicWeightChange) (map (fun y => mkE y t) ws)).
  { intros ws F. apply Forall_forall. intros e Ie. apply in_map_iff in Ie as (y & <- & Iy). simpl.
    rewrite forallb_forall in F. specialize (F _ Iy). destruct y; try discriminate; auto. }
  rewrite M. clear M. assert (TS : inb t S = true -> In t S) by apply inb_in.
  revert TS Sh. generalize (a_in (arun (inb t S) (proj t l))) (proj t q) (inb t S). intros p0 qt b TS Sh.
  destruct Sh as [ws F| |ws F| |ws F].
  - exists [], [], (map (fun y => mkE y t) ws). simpl. auto 10.
  - exists [mkE TaskRemoval t], [], []. simpl. auto 10.
  - exists [mkE TaskRemoval t], [mkE TaskAddition t], (map (fun y => mkE y t) ws). simpl. auto 10.
  - exists [], [], []. simpl. auto 10.
  - exists [], [mkE TaskAddition t], (map (fun y => mkE y t) ws). simpl. auto 10.
Qed.

(* tasks with an addition or a weight change left in the queue are in the problem *)
Lemma queue_present S l q e : valid S l -> addresses l -> queue l = Ok q -> In e q ->
  (e_type e = TaskAddition \/ e_type e = WeightChange \/ e_type e = AnisotropicWeightChange) ->
  In (e_emitter e) (tasksAfter S l).
Proof.
  intros V AD E Ie Ty. destruct (run S l V AD) as (q' & E' & I1 & I2). rewrite E in E'. injection E' as <-.
  set (t := e_emitter e).
  assert (Iq : In (e_type e) (proj t q)) by (apply (same_gives_in 0); exact Ie).
  assert (TT : forall y, In y (proj t l) -> taskT y = true).
  { destruct (task_or_sub l t AD) as [TT|NR]; [exact TT|]. rewrite I2 in Iq by exact NR. apply proj_in in Iq.
    apply tasks_only; [exact AD|]. exists (mkE (e_type e) t). split; [exact Iq|]. split; [reflexivity|].
    unfold isSub. simpl. destruct Ty as [->|[->| ->]]; reflexivity. }
  destruct (I1 t TT) as (A & _ & _ & Sh). apply inb_in.
  rewrite (tasks_aut t l S (mkAst (inb t S) (false, false) false)) by reflexivity.
  change (a_in (arun (inb t S) (proj t l)) = true).
  revert Sh Iq. generalize (a_in (arun (inb t S) (proj t l))) (proj t q) (inb t S). intros p0 qt b Sh Iq.
  destruct Sh as [ws F| |ws F| |ws F]; auto; simpl in Iq; exfalso; auto.
  destruct Iq as [Eq|[]]. rewrite <- Eq in Ty. intuition discriminate.
Qed.
Lemma valid_app a : forall S b, valid S (a ++ b) <-> valid S a /\ valid (tasksAfter S a) b.
Proof. induction a as [|e a IH]; intros S b; simpl; [tauto|]. rewrite IH. unfold tasksAfter. simpl. tauto. Qed.
(* the queue only holds events that were sent *)
Lemma purge_from t q : forall add q' b, purge t q add = Ok (q', b) -> forall e, In e q' -> In e q.
Proof.
  induction q as [|x q IH]; intros add q' b H e I; simpl in *; [injection H as <- <-; auto|].
  destruct ((e_emitter x =? t) && negb (isRemoval (e_type x))).
  - right. destruct (isAddition (e_type x)); [destruct add; [|discriminate]|]; eapply IH; eauto.
  - destruct (purge t q add) as [[q1 b1]| |] eqn:P; simpl in H; try discriminate. injection H as <- <-.
    destruct I as [->|I]; [now left|]. right. eapply IH; eauto.
Qed.
Lemma addEvents_from l : forall q q', addEvents q l = Ok q' -> forall e, In e q' -> In e q \/ In e l.
Proof.
  induction l as [|x l IH]; intros q q' H e I; simpl in *; [injection H as <-; auto|].
  destruct (addEvent q x) as [q1| |] eqn:A; simpl in H; try discriminate.
  destruct (IH _ _ H e I) as [J|J]; [|auto]. unfold addEvent in A. destruct (isRemoval (e_type x)).
  - destruct (purge (e_emitter x) q true) as [[q2 b2]| |] eqn:P; simpl in A; try discriminate. injection A as <-.
    destruct b2; [apply in_app_iff in J as [J|[<-|[]]]; [|auto]|]; left; eapply purge_from; eauto.
  - injection A as <-. apply in_app_iff in J as [J|[<-|[]]]; auto.
Qed.
Lemma queue_from l q : queue l = Ok q -> forall e, In e q -> In e l.
Proof. intros H e I. destruct (addEvents_from _ _ _ H e I) as [[]|J]. exact J. Qed.
