(* Proofs for C54: construction, dependency graph. *)
From Coq Require Import List Bool Arith QArith Lia Permutation Relations.
Import ListNotations.
From Verif Require Import Base QSum SubstModel SubSetModel SubSetSpec.
From Verif Require Import GraphSpec GraphProofs.
From Verif Require GraphModel SubstProofs.
Local Open Scope nat_scope.

Lemma mem_In x l : mem x l = true <-> In x l.
Proof. apply SubstProofs.mem_In. Qed.
Lemma mem_not x l : mem x l = false <-> ~ In x l.
Proof. apply SubstProofs.mem_not. Qed.
Lemma nodupb_NoDup l : nodupb l = true <-> NoDup l.
Proof.
  induction l as [|a l IH]; simpl; [split; [constructor|reflexivity]|]. rewrite andb_true_iff, negb_true_iff, mem_not, IH. split.
  - intros [A B]. now constructor.
  - intros H. inversion H. auto.
Qed.
Lemma total_sum sz l : total sz l = list_sum (map sz l).
Proof. induction l as [|a l IH]; [reflexivity|]. unfold total in *. simpl. now rewrite IH. Qed.
Lemma In_insertS a l x : In x (insertS a l) <-> x = a \/ In x l.
Proof.
  induction l as [|b l IH]; simpl; [intuition|]. destruct (a <? b); [simpl; intuition|]. destruct (Nat.eqb_spec a b) as [->|_]; simpl; [intuition|].
  rewrite IH. intuition.
Qed.
Lemma insertS_sorted a l : Sorted.StronglySorted lt l -> Sorted.StronglySorted lt (insertS a l).
Proof.
  induction 1 as [|b l S IH F]; simpl; [repeat constructor|]. destruct (Nat.ltb_spec a b).
  - constructor; [constructor; assumption|]. constructor; [assumption|]. eapply Forall_impl; [|exact F]. intros; lia.
  - destruct (Nat.eqb_spec a b); [constructor; assumption|]. constructor; [exact IH|]. apply Forall_forall. intros x I. apply In_insertS in I.
    rewrite Forall_forall in F. destruct I as [->|I]; [lia|auto].
Qed.
Lemma sorted_gen l : forall acc, Sorted.StronglySorted lt acc ->
  Sorted.StronglySorted lt (fold_left (fun l a => insertS a l) l acc) /\ (forall x, In x (fold_left (fun l a => insertS a l) l acc) <-> In x l \/ In x acc).
Proof.
  induction l as [|a l IH]; intros acc S; simpl; [split; [exact S|intuition]|]. destruct (IH _ (insertS_sorted a acc S)) as [A B]. split; [exact A|].
  intros x. rewrite B, In_insertS. intuition.
Qed.
Lemma In_sorted l x : In x (sorted l) <-> In x l.
Proof. unfold sorted. rewrite (proj2 (sorted_gen l [] (Sorted.SSorted_nil _))). simpl. tauto. Qed.
Lemma NoDup_sorted l : NoDup (sorted l).
Proof.
  pose proof (proj1 (sorted_gen l [] (Sorted.SSorted_nil _))) as S. fold (sorted l) in S.
  induction S as [|a l' S IH F]; [constructor|]. constructor; [|exact IH]. intros I. rewrite Forall_forall in F. apply F in I. lia.
Qed.
Lemma uniq_gen l : forall acc, NoDup acc -> NoDup (fold_left addUniq l acc) /\ (forall x, In x (fold_left addUniq l acc) <-> In x l \/ In x acc).
Proof.
  induction l as [|a l IH]; intros acc N; simpl; [split; [exact N|intuition]|].
  assert (N' : NoDup (addUniq acc a)).
  { unfold addUniq. destruct (mem a acc) eqn:E; [exact N|]. apply mem_not in E. apply (Permutation_NoDup (Permutation_cons_append acc a)). now constructor. }
  destruct (IH _ N') as [A B]. split; [exact A|]. intros x. rewrite B. unfold addUniq. destruct (mem a acc) eqn:E.
  - apply mem_In in E. intuition (subst; auto).
  - rewrite in_app_iff. simpl. intuition.
Qed.
Lemma In_uniq l x : In x (uniq l) <-> In x l.
Proof. unfold uniq. rewrite (proj2 (uniq_gen l [] (NoDup_nil _))). simpl. tauto. Qed.
Lemma NoDup_uniq l : NoDup (uniq l).
Proof. apply (uniq_gen l [] (NoDup_nil _)). Qed.

Section P.
Variable sz : nat -> nat.
Variable cdef : nat -> cons.
Notation acceptable := (acceptable sz cdef).

Lemma hasVar_In c v : hasVar cdef c v = true <-> In v (c_vars (k_cst (cdef c))).
Proof. apply mem_In. Qed.

Lemma check_spec s : check sz cdef s = true <->
  (forall c, In c (ss_cs s) -> k_equal (cdef c) = true) /\ NoDup (ss_xs s) /\
  (forall x, In x (ss_xs s) -> exists c, In c (ss_cs s) /\ In x (c_vars (k_cst (cdef c)))) /\
  (forall c, In c (ss_cs s) -> exists x, In x (ss_xs s) /\ In x (c_vars (k_cst (cdef c)))) /\
  ss_rank s <= list_sum (map sz (ss_xs s)).
Proof.
  unfold check. rewrite !andb_true_iff, !forallb_forall, nodupb_NoDup, Nat.leb_le, total_sum.
  assert (A : (forall x, In x (ss_xs s) -> existsb (fun c => hasVar cdef c x) (ss_cs s) = true) <->
              (forall x, In x (ss_xs s) -> exists c, In c (ss_cs s) /\ In x (c_vars (k_cst (cdef c))))).
  { split; intros H x I; specialize (H x I).
    - apply existsb_exists in H. destruct H as (c & C1 & C2). apply hasVar_In in C2. eauto.
    - destruct H as (c & C1 & C2). apply existsb_exists. exists c. split; [exact C1|now apply hasVar_In]. }
  assert (B : (forall c, In c (ss_cs s) -> existsb (fun x => hasVar cdef c x) (ss_xs s) = true) <->
              (forall c, In c (ss_cs s) -> exists x, In x (ss_xs s) /\ In x (c_vars (k_cst (cdef c))))).
  { split; intros H c I; specialize (H c I).
    - apply existsb_exists in H. destruct H as (x & C1 & C2). apply hasVar_In in C2. eauto.
    - destruct H as (x & C1 & C2). apply existsb_exists. exists x. split; [exact C1|now apply hasVar_In]. }
  rewrite A, B. tauto.
Qed.

Lemma newSub_ok cs xs r s : newSub sz cdef cs xs r = Ok s <-> s = mkSS cs xs (full cdef cs r) /\ acceptable s.
Proof.
  unfold newSub. set (s0 := mkSS cs xs _).
  assert (E0 : s0 = mkSS cs xs (full cdef cs r)) by (unfold s0, full, mOf, csize; destruct r; reflexivity).
  assert (T : mOf cdef cs = list_sum (map (fun c => c_size (k_cst (cdef c))) cs)) by reflexivity.
  destruct xs as [|x xs'] eqn:EX.
  - split; [destruct (forallb _ cs); discriminate|]. intros [-> (_ & N & _)]. exfalso. now apply N.
  - destruct (check sz cdef s0) eqn:CH.
    + apply check_spec in CH. destruct CH as (C1 & C2 & C3 & C4 & C5).
      rewrite <- EX.
      destruct ((mOf cdef cs <=? total sz xs) && (ss_rank s0 <=? mOf cdef cs)) eqn:G.
      * apply andb_true_iff in G. destruct G as [G1 G2]. apply Nat.leb_le in G1, G2. rewrite total_sum in G1. split.
        -- intros H. assert (HS : s0 = s) by congruence. clear H. rewrite <- HS. split; [exact E0|]. clear HS.
           split; [exact C1|]. split; [cbn [s0 ss_xs]; discriminate|]. split; [exact C2|]. split; [exact C3|]. split; [exact C4|].
           split; [exact G2|]. cbn [s0 ss_xs ss_cs]. rewrite <- EX. exact G1.
        -- intros [-> _]. now rewrite E0.
      * split; [discriminate|]. intros [-> (_ & _ & _ & _ & _ & R1 & R2)]. exfalso. cbn [ss_cs ss_xs ss_rank] in *.
        apply andb_false_iff in G. rewrite !Nat.leb_gt in G. rewrite total_sum, T, EX in G. rewrite E0 in G, R1, R2. cbn [ss_cs ss_xs ss_rank] in *. lia.
    + split; [discriminate|]. intros [-> (A1 & _ & A2 & A3 & A4 & A5 & A6)]. exfalso.
      assert (K : check sz cdef s0 = true) by (apply check_spec; repeat split; auto; lia). congruence.
Qed.

(* ---- the dependency graph ---- *)
Definition depends (l : list ssub) (i j : nat) : Prop :=
  exists si sj c v, nth_error l i = Some si /\ nth_error l j = Some sj /\ In c (ss_cs si) /\ In v (c_vars (k_cst (cdef c))) /\ In v (ss_xs sj).
Lemma dependsOn_spec s t : dependsOn cdef s t = true <-> exists c v, In c (ss_cs s) /\ In v (c_vars (k_cst (cdef c))) /\ In v (ss_xs t).
Proof.
  unfold dependsOn. rewrite existsb_exists. split.
  - intros (x & X1 & X2). apply existsb_exists in X2. destruct X2 as (c & C1 & C2). apply hasVar_In in C2. eauto.
  - intros (c & v & A & B & C). exists v. split; [exact C|]. apply existsb_exists. exists c. split; [exact A|now apply hasVar_In].
Qed.
Lemma depends_on l i j si sj : nth_error l i = Some si -> nth_error l j = Some sj -> (depends l i j <-> dependsOn cdef si sj = true).
Proof.
  intros A B. rewrite dependsOn_spec. split.
  - intros (si' & sj' & c & v & A' & B' & H). rewrite A in A'. rewrite B in B'. injection A' as <-. injection B' as <-. eauto.
  - intros (c & v & H). exists si, sj, c, v. auto.
Qed.
Record inv (t : st) : Prop := {
  i_acc : forall s, In s (subs t) -> acceptable s;
  i_graph : exists a, gwf (deps t) a /\ an a = length (subs t) /\ forall i j, aE a i j <-> depends (subs t) i j }.

Lemma inv_init : inv init.
Proof.
  split; [intros s []|]. exists aempty. split; [exact gwf_empty|]. split; [reflexivity|]. intros i j. simpl. split; [tauto|].
  intros (si & _ & _ & _ & H & _). destruct i; discriminate.
Qed.

Lemma addEdges_ok i s l : forall j g a, gwf g a -> j + length l <= an a -> i < an a ->
  exists g' a', addEdges cdef i j s l g = Ok g' /\ gwf g' a' /\ an a' = an a /\
    forall x y, aE a' x y <-> aE a x y \/ (exists k t, nth_error l k = Some t /\ ((x = j + k /\ y = i /\ dependsOn cdef t s = true) \/ (x = i /\ y = j + k /\ dependsOn cdef s t = true))).
Proof.
  induction l as [|t l IH]; intros j g a W L I; simpl.
  - exists g, a. split; [reflexivity|]. split; [exact W|]. split; [reflexivity|]. intros x y. split; [auto|]. intros [H|(k & t & H & _)]; [exact H|destruct k; discriminate].
  - simpl in L.
    assert (S1 : exists g1 a1, (if dependsOn cdef t s then do (g', _) <- GraphModel.addEdge g j i; Ok g' else Ok g) = Ok g1 /\ gwf g1 a1 /\ an a1 = an a /\
                 forall x y, aE a1 x y <-> aE a x y \/ (x = j /\ y = i /\ dependsOn cdef t s = true)).
    { destruct (dependsOn cdef t s).
      - destruct (addEdge_ok g a j i W ltac:(lia) I) as (g1 & b & E & W1 & _). rewrite E. exists g1, (astep a (GraphModel.GEdge j i)).
        split; [reflexivity|]. split; [exact W1|]. split; [reflexivity|]. intros x y. simpl. tauto.
      - exists g, a. split; [reflexivity|]. split; [exact W|]. split; [reflexivity|]. intros x y. intuition discriminate. }
    destruct S1 as (g1 & a1 & E1 & W1 & N1 & H1). rewrite E1. cbn [bind].
    assert (S2 : exists g2 a2, (if dependsOn cdef s t then do (g', _) <- GraphModel.addEdge g1 i j; Ok g' else Ok g1) = Ok g2 /\ gwf g2 a2 /\ an a2 = an a /\
                 forall x y, aE a2 x y <-> aE a1 x y \/ (x = i /\ y = j /\ dependsOn cdef s t = true)).
    { destruct (dependsOn cdef s t).
      - destruct (addEdge_ok g1 a1 i j W1 ltac:(lia) ltac:(lia)) as (g2 & b & E & W2 & _). rewrite E. exists g2, (astep a1 (GraphModel.GEdge i j)).
        split; [reflexivity|]. split; [exact W2|]. split; [exact N1|]. intros x y. simpl. tauto.
      - exists g1, a1. split; [reflexivity|]. split; [exact W1|]. split; [exact N1|]. intros x y. intuition discriminate. }
    destruct S2 as (g2 & a2 & E2 & W2 & N2 & H2). rewrite E2. cbn [bind].
    destruct (IH (S j) g2 a2 W2 ltac:(lia) ltac:(lia)) as (g' & a' & E' & W' & N' & H'). exists g', a'. split; [exact E'|]. split; [exact W'|]. split; [lia|].
    intros x y. rewrite H', H2, H1. split.
    + intros [[[H|H]|H]|(k & t' & K & H)]; [left; exact H| | |].
      * right. exists 0, t. split; [reflexivity|]. left. rewrite Nat.add_0_r. exact H.
      * right. exists 0, t. split; [reflexivity|]. right. rewrite Nat.add_0_r. exact H.
      * right. exists (S k), t'. split; [exact K|]. rewrite Nat.add_succ_r. exact H.
    + intros [H|(k & t' & K & H)]; [left; left; left; exact H|]. destruct k as [|k].
      * injection K as <-. rewrite Nat.add_0_r in H. left. destruct H as [H|H]; [left; right; exact H|right; exact H].
      * right. exists k, t'. split; [exact K|]. rewrite Nat.add_succ_r in H. exact H.
Qed.

Lemma nth_snoc_case {A} (l : list A) a i x : nth_error (l ++ [a]) i = Some x <-> nth_error l i = Some x \/ (i = length l /\ x = a).
Proof.
  destruct (Nat.lt_ge_cases i (length l)) as [L|L].
  - rewrite nth_error_app1 by exact L. split; [auto|]. intros [H|[H _]]; [exact H|lia].
  - rewrite nth_error_app2 by exact L. rewrite (proj2 (nth_error_None l i)) by exact L. destruct (Nat.eq_dec i (length l)) as [->|N].
    + rewrite Nat.sub_diag. simpl. split; [intros H; injection H as <-; auto|intros [H|[_ ->]]; [discriminate|reflexivity]].
    + rewrite (proj2 (nth_error_None _ _)) by (simpl; lia). split; [discriminate|intros [H|[H _]]; [discriminate|lia]].
Qed.

Lemma add_inv s t : inv t -> acceptable s -> exists t', add cdef s t = Done t' /\ inv t' /\ subs t' = subs t ++ [s].
Proof.
  intros [IA (a & W & N & H)] A. unfold add. destruct (GraphModel.addNode (deps t)) as [g i] eqn:EN.
  pose proof (gwf_addNode _ _ W) as W1. rewrite EN in W1. cbn [fst] in W1.
  assert (Ei : i = length (subs t)) by (unfold GraphModel.addNode in EN; injection EN as _ <-; rewrite (gw_roots _ _ W); exact N).
  rewrite (proj2 (Nat.eqb_eq _ _) Ei). cbn [negb].
  destruct (addEdges_ok i s (subs t ++ [s]) 0 g _ W1) as (g' & a' & E & W' & N' & H').
  { rewrite app_length. simpl. lia. } { simpl. lia. }
  rewrite E. eexists. split; [reflexivity|]. split; [|reflexivity]. split; cbn [subs deps].
  - intros x I. apply in_app_iff in I. destruct I as [I|[<-|[]]]; auto.
  - exists a'. split; [exact W'|]. split; [rewrite N', app_length; simpl; lia|]. intros x y. rewrite H'. cbn [astep aE]. rewrite H. clear - Ei. split.
    + intros [H|(k & u & K & [(-> & -> & D)|(-> & -> & D)])].
      * destruct H as (si & sj & c & v & A & B & R). exists si, sj, c, v. split; [apply nth_snoc_case; auto|]. split; [apply nth_snoc_case; auto|exact R].
      * apply (depends_on _ _ _ u s); [exact K|apply nth_snoc_case; auto|exact D].
      * apply (depends_on _ _ _ s u); [apply nth_snoc_case; auto|exact K|exact D].
    + intros (si & sj & c & v & A & B & R). pose proof (proj2 (dependsOn_spec si sj) (ex_intro _ c (ex_intro _ v R))) as DD.
      pose proof A as A0. pose proof B as B0. apply nth_snoc_case in A, B.
      destruct B as [B|[-> ->]].
      * destruct A as [A|[-> ->]].
        -- left. exists si, sj, c, v. auto.
        -- right. exists y, sj. split; [exact B0|]. right. auto.
      * right. exists x, si. split; [exact A0|]. left. auto.
Qed.

Lemma delN_deleted {A} i (l : list A) : GraphModel.delN i l = deleted i l.
Proof.
  unfold GraphModel.delN. revert i. induction l as [|a l IH]; intros [|i]; simpl; auto.
  now rewrite <- IH.
Qed.
Lemma nth_deleted {A} i (l : list A) : forall j, i < length l -> nth_error (deleted i l) j = nth_error l (up i j).
Proof.
  revert i. induction l as [|a l IH]; intros i j L; simpl in L; [lia|]. destruct i as [|i]; simpl; [reflexivity|].
  destruct j as [|j]; simpl; [reflexivity|]. rewrite IH by lia. unfold up. simpl. destruct (Nat.ltb_spec j i), (Nat.ltb_spec (S j) (S i)); try lia; reflexivity.
Qed.
Lemma deleted_length {A} i (l : list A) : i < length l -> length (deleted i l) = length l - 1.
Proof. revert i. induction l as [|a l IH]; intros [|i] L; simpl in *; try lia. rewrite IH by lia. lia. Qed.
Lemma deleted_In {A} i (l : list A) x : In x (deleted i l) -> In x l.
Proof. revert i. induction l as [|a l IH]; intros [|i] H; simpl in *; auto. destruct H as [H|H]; eauto. Qed.
Lemma deleted_out {A} i (l : list A) : length l <= i -> deleted i l = l.
Proof. revert i. induction l as [|a l IH]; intros [|i] L; simpl in *; try reflexivity; try lia. rewrite IH by lia. reflexivity. Qed.
Lemma remove_inv i t : inv t -> exists t', remove i t = Done t' /\ inv t' /\ subs t' = deleted i (subs t).
Proof.
  intros [IA (a & W & N & H)]. unfold remove. destruct (Nat.ltb_spec i (length (subs t))) as [L|L].
  - destruct (removeNode_ok (deps t) a i W ltac:(lia)) as (g & E & W'). rewrite E. eexists. split; [reflexivity|]. split; [|cbn [subs]; apply delN_deleted].
    split; cbn [subs deps]; rewrite delN_deleted.
    + intros s I. apply deleted_In in I. auto.
    + eexists. split; [exact W'|]. split; [rewrite deleted_length by exact L; simpl; lia|]. intros x y. cbn [astep aE]. rewrite H. unfold depends.
      split; intros (si & sj & c & v & A & B & R); exists si, sj, c, v; rewrite !nth_deleted in * by exact L; auto.
  - exists t. split; [reflexivity|]. split; [split; eauto|]. symmetry. now apply deleted_out.
Qed.
End P.
