(* The call graph: histories and plans. *)
Require Import List Arith Bool Lia Permutation Relations.
Require Import Verif.Base Verif.GraphModel Verif.GraphSpec Verif.ListLemmas Verif.GraphProofs Verif.OrderProofs.
Require Import Verif.CallGraphModel Verif.CallGraphSpec Verif.CallGraphProofs.
Import ListNotations.

Definition HI (N : net) (st : cgraph) (ins : list (nat * list nat)) : Prop :=
  CI N st /\ (forall c, In c (calls_ st) -> processed N st c) /\ (forall c, In c (calls_ st) <-> needed N ins c).

Lemma feeds_node N s o c : feeds N s o c -> N (fst c) <> None.
Proof. intros F. induction F; [simpl; congruence|assumption]. Qed.
Lemma dep_node N c d : dep N c d -> N (fst d) <> None.
Proof. intros F. destruct F; [simpl; congruence|eapply feeds_node; eauto]. Qed.

Section Hist.
Variables (N : net) (U0 : list call) (rank : nat -> nat -> nat) (D : nat).
Hypothesis FE : forwarding_ends N rank D.
Hypothesis UC0 : forall c d, In c U0 -> dep N c d -> In d U0.

Definition U := filter (fun c => match N (fst c) with Some _ => true | None => false end) U0.
Lemma U_in c : In c U <-> In c U0 /\ N (fst c) <> None.
Proof. unfold U. rewrite filter_In. destruct (N (fst c)); split; intros [A B]; split; congruence. Qed.
Lemma UC c d : In c U -> dep N c d -> In d U.
Proof. intros I H. apply U_in. split; [eapply UC0; [apply U_in; exact I|exact H]|eapply dep_node; eauto]. Qed.
Lemma UN c : In c U -> N (fst c) <> None.
Proof. apply U_in. Qed.
Lemma need_bound st f : length U0 * (D + 2) + D + 2 <= f -> need U D st + D + 2 <= f.
Proof.
  intros H. assert (white U st <= length U0).
  { unfold white, U. clear. induction U0 as [|c l IH]; simpl; [lia|]. destruct (N (fst c)); simpl; [|lia].
    destruct (in_dec call_eq_dec c (calls_ st)); simpl; lia. }
  unfold need. nia.
Qed.
Lemma dep_in_calls st c d : (forall c, In c (calls_ st) -> processed N st c) -> In c (calls_ st) ->
  clos_refl_trans call (dep N) c d -> In d (calls_ st).
Proof.
  intros P I R. induction R as [c d H|c|c d e _ IH1 _ IH2]; [|exact I|auto].
  destruct (P c I d H) as [i [j [_ [J _]]]]. eapply cidx_in; eauto.
Qed.

Lemma needed_app ins1 ins2 c : needed N (ins1 ++ ins2) c <-> needed N ins1 c \/ needed N ins2 c.
Proof.
  split.
  - intros [s [os [o [c0 [I H]]]]]. apply in_app_or in I. destruct I; [left|right]; exists s, os, o, c0; auto.
  - intros [H|H]; destruct H as [s [os [o [c0 [I H]]]]]; exists s, os, o, c0; (split; [apply in_or_app; auto|exact H]).
Qed.

Variable f : nat.
Hypothesis F : length U0 * (D + 2) + D + 2 <= f.

Lemma addOutput_HI s o st ins : HI N st ins -> (forall c, feeds N s o c -> In c U0) ->
  exists ids st', addOutput f N s o st = Ok (ids, st') /\ HI N st' (ins ++ [(s, [o])]).
Proof.
  intros [C [P H]] B. destruct (proj1 (cg_ok N U rank D FE UC UN f) s o st C) as [ids [st' [A [[C' [X PO]] FD]]]].
  { intros c Q. apply U_in. split; [auto|eapply feeds_node; eauto]. }
  { pose proof (need_bound st f F). pose proof (proj1 FE s o). lia. }
  exists ids, st'. split; [exact A|]. split; [exact C'|].
  assert (P' : forall c, In c (calls_ st') -> processed N st' c).
  { intros c I. destruct (PO c I) as [I'|[K _]]; [|exact K]. eapply processed_ext; eauto. }
  split; [exact P'|]. intros c. rewrite needed_app. split.
  - intros I. destruct (PO c I) as [I'|[K [c0 [F0 R]]]]; [left; apply H, I'|]. right. exists s, [o], o, c0. simpl. auto.
  - intros [I|[s' [os [o' [c0 [[[= <- <-]|[]] [[<-|[]] [Q R]]]]]]]].
    + eapply in_ext; [exact X|apply H, I].
    + eapply dep_in_calls; [exact P'| |exact R]. apply FD, Q.
Qed.
Lemma needed_ext ins ins' : (forall s o, (exists os, In (s, os) ins /\ In o os) <-> (exists os, In (s, os) ins' /\ In o os)) ->
  forall c, needed N ins c <-> needed N ins' c.
Proof.
  intros E c. split; intros [s [os [o [c0 [I [J [K L]]]]]]].
  - destruct (proj1 (E s o) (ex_intro _ os (conj I J))) as [os' [I' J']]. exists s, os', o, c0. auto.
  - destruct (proj2 (E s o) (ex_intro _ os (conj I J))) as [os' [I' J']]. exists s, os', o, c0. auto.
Qed.
Lemma HI_ext st ins ins' : (forall s o, (exists os, In (s, os) ins /\ In o os) <-> (exists os, In (s, os) ins' /\ In o os)) ->
  HI N st ins -> HI N st ins'.
Proof. intros E [C [P H]]. split; [exact C|]. split; [exact P|]. intros c. rewrite H. apply needed_ext, E. Qed.
Lemma addOuts_HI s os : forall st ins, HI N st ins -> (forall o c, In o os -> feeds N s o c -> In c U0) ->
  exists st', addOuts f N s os st = Ok st' /\ HI N st' (ins ++ [(s, os)]).
Proof.
  induction os as [|o os IH]; intros st ins H B; cbn [addOuts].
  - exists st. split; [reflexivity|]. eapply HI_ext; [|exact H]. intros s' o. split; intros [os [I J]].
    + exists os. split; [apply in_or_app; auto|exact J].
    + apply in_app_or in I. destruct I as [I|[[= <- <-]|[]]]; [exists os; auto|destruct J].
  - destruct (addOutput_HI s o st ins H) as [ids [st1 [A H1]]]; [intros c Q; eapply B; simpl; eauto|].
    rewrite A. cbn [bind]. destruct (IH st1 _ H1) as [st2 [A2 H2]]; [intros o' c Q; apply B; simpl; auto|].
    exists st2. split; [exact A2|]. eapply HI_ext; [|exact H2]. intros s' o'. split; intros [os' [I J]].
    + rewrite <- app_assoc in I. apply in_app_or in I. destruct I as [I|[[= <- <-]|[[= <- <-]|[]]]].
      * exists os'. split; [apply in_or_app; auto|exact J].
      * exists (o :: os). split; [apply in_or_app; simpl; auto|]. destruct J as [->|[]]. simpl. auto.
      * exists (o :: os). split; [apply in_or_app; simpl; auto|]. simpl. auto.
    + apply in_app_or in I. destruct I as [I|[[= <- <-]|[]]].
      * exists os'. split; [rewrite <- app_assoc; apply in_or_app; auto|exact J].
      * destruct J as [->|J]; [exists [o']|exists os]; (split; [rewrite <- app_assoc; apply in_or_app; simpl; auto|simpl; auto]).
Qed.
Lemma cg_add_HI i : forall st ins, HI N st ins -> (forall s os o c, In (s, os) i -> In o os -> feeds N s o c -> In c U0) ->
  exists st', cg_add f N i st = Ok st' /\ HI N st' (ins ++ i).
Proof.
  induction i as [|[s os] i IH]; intros st ins H B; cbn [cg_add].
  - exists st. split; [reflexivity|]. rewrite app_nil_r. exact H.
  - destruct (addOuts_HI s os st ins H) as [st1 [A H1]]; [intros o c Q; apply (B s os o c); simpl; auto|].
    rewrite A. cbn [bind]. destruct (IH st1 _ H1) as [st2 [A2 H2]]; [intros s' os' o c Q; apply B; simpl; auto|].
    exists st2. split; [exact A2|]. rewrite <- app_assoc in H2. exact H2.
Qed.
Lemma HI_init : HI N cg_init [].
Proof.
  split; [|split].
  - constructor; simpl.
    + exists aempty. split; [exact gwf_empty|reflexivity].
    + constructor.
    + intros c i. unfold cidx. simpl. destruct i; split; discriminate.
    + tauto.
    + discriminate.
  - intros c [].
  - intros c. simpl. split; [tauto|]. intros [s [os [o [c0 [[] _]]]]].
Qed.
Lemma cgrun_HI h : forall st ins, HI N st ins ->
  (forall s os o c, In (s, os) (all_registered h) -> In o os -> feeds N s o c -> In c U0) ->
  exists st', cgrun f N h st = Ok st' /\ HI N st' (registered h ins).
Proof.
  induction h as [|[i|] h IH]; intros st ins H B; cbn [cgrun registered].
  - exists st. auto.
  - destruct (cg_add_HI i st ins H) as [st1 [A H1]]; [intros s os o c Q; apply B; simpl; apply in_or_app; auto|].
    rewrite A. cbn [bind]. apply (IH st1 _ H1). intros s os o c Q. apply B. simpl. apply in_or_app. auto.
  - apply (IH cg_init [] HI_init). exact B.
Qed.
End Hist.

(* plans *)
Section Plan.
Variables (N : net) (st : cgraph) (ins : list (nat * list nat)).
Hypothesis H : HI N st ins.
Notation clos := (clos_refl_trans call (dep N)).

Lemma g_wf : exists a, gwf (dg st) a /\ an a = length (calls_ st).
Proof. apply H. Qed.
Definition cl (i : nat) : call := nth i (calls_ st) (0, 0).
Lemma cl_idx i : i < length (calls_ st) -> cidx st i (cl i).
Proof. intros L. unfold cidx, cl. apply nth_error_nth'. exact L. Qed.
Lemma edge_iff i j : In (i, j) (edges_ (dg st)) <-> i < length (calls_ st) /\ j < length (calls_ st) /\ dep N (cl i) (cl j).
Proof.
  destruct H as [C [P _]]. split.
  - intros E. destruct (ci_edge _ _ C i j E) as [c [d [I [J Q]]]]. assert (LI := cidx_lt _ _ _ I). assert (LJ := cidx_lt _ _ _ J).
    split; [exact LI|]. split; [exact LJ|]. rewrite (cidx_fun _ _ _ _ (cl_idx i LI) I), (cidx_fun _ _ _ _ (cl_idx j LJ) J). exact Q.
  - intros [LI [LJ Q]]. destruct (P (cl i) (cidx_in _ _ _ (cl_idx i LI)) _ Q) as [i' [j' [I [J E]]]].
    rewrite (cidx_inj N _ _ _ _ C (cl_idx i LI) I), (cidx_inj N _ _ _ _ C (cl_idx j LJ) J). exact E.
Qed.
Lemma planOf_ok l : (forall i, In i l -> i < length (calls_ st)) -> planOf (calls_ st) l = Ok (map cl l).
Proof.
  induction l as [|i l IH]; intros B; cbn [planOf map]; [reflexivity|].
  unfold nthR. assert (Q := cl_idx i (B i (or_introl eq_refl))). unfold cidx in Q. rewrite Q. cbn [bind].
  rewrite IH by (intros j J; apply B; simpl; auto). reflexivity.
Qed.
Lemma cl_inj i j : i < length (calls_ st) -> j < length (calls_ st) -> cl i = cl j -> i = j.
Proof.
  intros I J Q. apply (cidx_inj N st i j (cl i)); [apply H|apply cl_idx, I|rewrite Q; apply cl_idx, J].
Qed.
Lemma cl_NoDup l : (forall i, In i l -> i < length (calls_ st)) -> NoDup l -> NoDup (map cl l).
Proof.
  intros B ND. induction ND as [|i l NI ND IH]; simpl; [constructor|]. constructor; [|apply IH; intros j J; apply B; simpl; auto].
  intros C. apply in_map_iff in C. destruct C as [j [Q J]]. apply cl_inj in Q; [congruence|apply B; simpl; auto|apply B; simpl; auto].
Qed.
Lemma reach_clos a i j : gwf (dg st) a -> reach (aE a) i j -> i < length (calls_ st) ->
  j < length (calls_ st) /\ clos (cl i) (cl j).
Proof.
  intros W R. induction R as [i j E|i|i j k _ IH1 _ IH2]; intros L.
  - apply (gw_edges _ _ W), edge_iff in E. destruct E as [_ [LJ Q]]. split; [exact LJ|apply rt_step, Q].
  - split; [exact L|apply rt_refl].
  - destruct (IH1 L) as [LJ Q1]. destruct (IH2 LJ) as [LK Q2]. split; [exact LK|eapply rt_trans; eauto].
Qed.
Lemma index_of c : needed N ins c -> exists i, i < length (calls_ st) /\ cl i = c.
Proof.
  intros Q. apply H in Q. apply in_cidx in Q. destruct Q as [i I]. exists i. assert (L := cidx_lt _ _ _ I). split; [exact L|].
  exact (cidx_fun _ _ _ _ (cl_idx i L) I).
Qed.
Lemma cyc a : gwf (dg st) a -> cyclic (aE a) -> dep_cycle N ins.
Proof.
  intros W [i [j [E R]]]. apply (gw_edges _ _ W), edge_iff in E. destruct E as [LI [LJ Q]].
  destruct (reach_clos a j i W R LJ) as [_ Q2]. exists (cl i), (cl j). split; [|split; [exact Q|exact Q2]].
  apply H. eapply cidx_in. apply cl_idx, LI.
Qed.
Lemma before_map l i j : before l i j -> called_before (map cl l) (cl i) (cl j).
Proof.
  intros [l1 [l2 [l3 ->]]]. exists (map cl l1), (map cl l2), (map cl l3). rewrite map_app. simpl. rewrite map_app. reflexivity.
Qed.
Lemma plan_general :
  match cg_update st with
  | Ok p => NoDup p /\ (forall c, In c p -> needed N ins c) /\
            (forall c d, In c p -> dep N c d -> called_before p d c)
  | Throw => dep_cycle N ins
  | UB => False
  end.
Proof.
  unfold cg_update. destruct g_wf as [a [W L]]. pose proof (order_spec (dg st) a W) as OS.
  destruct (order (dg st)) as [l| |]; cbn [bind]; [|eapply cyc; eauto|exact OS].
  destruct OS as [ND [DF IN]]. assert (B : forall i, In i l -> i < length (calls_ st)).
  { intros i I. apply IN in I. destruct I as [r [[LR _] R]]. rewrite L in LR. apply (reach_clos a r i W R LR). }
  rewrite (planOf_ok l B). split; [apply cl_NoDup; assumption|]. split.
  - intros c I. apply in_map_iff in I. destruct I as [i [<- I]]. apply H. eapply cidx_in. apply cl_idx, B, I.
  - intros c d I Q. apply in_map_iff in I. destruct I as [i [<- I]].
    assert (ND2 : needed N ins d).
    { apply H. destruct H as [C [P _]]. destruct (P (cl i) (cidx_in _ _ _ (cl_idx i (B i I))) d Q) as [_ [j [_ [J _]]]].
      eapply cidx_in; eauto. }
    destruct (index_of d ND2) as [j [LJ <-]]. apply before_map. apply DF; [exact I|].
    apply (gw_edges _ _ W), edge_iff. auto.
Qed.
Lemma plan_acyclic : ~ dep_cycle N ins -> exists p, cg_update st = Ok p /\ NoDup p /\
  (forall c, In c p <-> needed N ins c) /\ (forall c d, In c p -> dep N c d -> called_before p d c).
Proof.
  intros NC. pose proof plan_general as PG. unfold cg_update in *. destruct g_wf as [a [W L]].
  destruct (order_acyclic (dg st) a W) as [l [O [PM _]]]; [intros Q; apply NC; eapply cyc; eauto|].
  rewrite O in *. cbn [bind] in *. assert (B : forall i, In i l <-> i < length (calls_ st)).
  { intros i. split; intros I.
    - apply (Permutation_in _ PM) in I. apply in_seq in I. lia.
    - apply (Permutation_in _ (Permutation_sym PM)). apply in_seq. lia. }
  rewrite (planOf_ok l (fun i => proj1 (B i))) in *. exists (map cl l). split; [reflexivity|].
  destruct PG as [ND [P1 P2]]. split; [exact ND|]. split; [|exact P2]. intros c. split; [apply P1|].
  intros Q. destruct (index_of c Q) as [i [LI <-]]. apply in_map. apply B, LI.
Qed.
End Plan.

Lemma c18 N rank D U h : forwarding_ends N rank D -> enough_calls N (all_registered h) U -> forall fuel,
  length U * (D + 2) + D + 2 <= fuel -> exists st, cgrun fuel N h cg_init = Ok st /\ HI N st (registered h []).
Proof.
  intros FE [E1 E2] fuel B. exact (cgrun_HI N U rank D FE E2 fuel B h cg_init [] (HI_init N) E1).
Qed.
