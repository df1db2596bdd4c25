(* The update graph generated from a list of objects and outputs. *)
From Coq Require Import List Bool Arith Lia Relations.
Require Import Verif.Base Verif.GraphModel Verif.CallGraphModel Verif.CallGraphSpec Verif.CallGraphProofs Verif.CallGraphProofs2.
Require Import Verif.InputsModel Verif.InputsSpec Verif.GuModel Verif.GuSpec.
Import ListNotations.
Local Open Scope nat_scope.

(* what is asked for, along the arguments *)
Lemma asked_nil obj s o : ~ asked obj [] s o.
Proof.
  intros (l & os & l' & E). destruct l as [|a l]; cbn in E; injection E as E1 E2.
  - destruct os; discriminate E2.
  - destruct l; discriminate E2.
Qed.
Lemma asked_obj obj t args s o : asked obj (Obj t :: args) s o <-> asked t args s o.
Proof.
  split.
  - intros (l & os & l' & E). destruct l as [|a l]; cbn in E; injection E as E1 E2.
    + destruct os; discriminate E2.
    + exists l, os, l'. exact E2.
  - intros (l & os & l' & E). exists (Obj obj :: l), os, l'. rewrite E. reflexivity.
Qed.
Lemma asked_out obj i args s o : asked obj (Out i :: args) s o <-> (s = obj /\ o = i) \/ asked obj args s o.
Proof.
  split.
  - intros (l & os & l' & E). destruct l as [|a l]; cbn in E; injection E as E1 E2.
    + subst s. destruct os as [|o' os]; cbn in E2; injection E2 as E2 E3.
      * left. split; congruence.
      * right. exists [], os, l'. cbn. f_equal. exact E3.
    + subst a. destruct l as [|a l]; cbn in E2; [discriminate|]. injection E2 as E2 E3. right.
      exists (Obj obj :: l), os, l'. cbn. f_equal. exact E3.
  - intros [[-> ->]|(l & os & l' & E)].
    + exists [], [], args. reflexivity.
    + destruct l as [|a l]; cbn in E; injection E as E1 E2.
      * subst s. exists [], (i :: os), l'. cbn. f_equal. f_equal. exact E2.
      * subst a. exists (Obj obj :: Out i :: l), os, l'. cbn. f_equal. f_equal. exact E2.
Qed.

Lemma In_sinsert i l j : In j (sinsert i l) <-> j = i \/ In j l.
Proof.
  induction l as [|k l IH]; cbn [sinsert].
  - cbn. split; [intros [K|[]]; auto|intros [K|[]]; auto].
  - destruct (i <? k).
    + cbn. split; [intros [K|K]; auto|intros [K|K]; auto].
    + destruct (Nat.eqb_spec i k) as [->|Ne].
      * cbn. split; [auto|intros [->|K]; auto].
      * cbn [In]. rewrite IH. tauto.
Qed.

(* the Inputs of one object *)
Definition uinv (user : state) (obj : nat) (P : nat -> Prop) : Prop :=
  (forall s, s <> obj -> inputs user s = None) /\ (forall i, holds user obj i <-> P i) /\
  (forall s, owns user s <-> s = obj /\ exists i, P i).
Lemma uinv_empty obj : uinv empty obj (fun _ => False).
Proof.
  split; [reflexivity|]. split; [intros i; split; [intros (l & E & _); discriminate E|intros []]|].
  intros s. unfold owns. cbn. split; [discriminate|intros [_ [i []]]].
Qed.
Lemma uinv_ext user obj P Q : (forall i, P i <-> Q i) -> uinv user obj P -> uinv user obj Q.
Proof.
  intros E (A & B & C). split; [exact A|]. split; [intros i; rewrite B; apply E|].
  intros s. rewrite C. split; intros [Es [i I]]; (split; [exact Es|exists i; apply E; exact I]).
Qed.
Lemma uinv_add en user obj P o : uinv user obj P -> en obj o = true ->
  exists user', addShared en user obj [o] = (user', false) /\ uinv user' obj (fun i => i = o \/ P i).
Proof.
  intros (A & B & C) E. unfold addShared. cbn [addRef]. unfold addOne. rewrite E.
  assert (O : forall s, (if s =? obj then true else store user s) = true <-> s = obj /\ exists i, i = o \/ P i).
  { intros s. destruct (Nat.eqb_spec s obj) as [->|Ne].
    - split; [intros _; split; [reflexivity|exists o; auto]|reflexivity].
    - split; [intros K; apply C in K; tauto|tauto]. }
  destruct (inputs user obj) as [l|] eqn:I; eexists; (split; [reflexivity|]).
  - split; [|split].
    + intros s Ne. cbn. unfold upd. destruct (Nat.eqb_spec s obj); [contradiction|auto].
    + intros i. rewrite <- B. unfold holds, getInput. cbn. unfold upd. rewrite Nat.eqb_refl, I. split.
      * intros (l' & [= <-] & J). apply In_sinsert in J. destruct J; [auto|right; eauto].
      * intros J. exists (sinsert o l). split; [reflexivity|]. apply In_sinsert. destruct J as [J|(l' & [= <-] & J)]; auto.
    + exact O.
  - split; [|split].
    + intros s Ne. cbn. unfold upd. destruct (Nat.eqb_spec s obj); [contradiction|auto].
    + intros i. rewrite <- B. unfold holds, getInput. cbn. unfold upd. rewrite Nat.eqb_refl, I. split.
      * intros (l' & [= <-] & [<-|[]]). auto.
      * intros J. exists [o]. split; [reflexivity|]. destruct J as [->|(l' & K & _)]; [cbn; auto|discriminate].
    + exact O.
Qed.
Lemma addShared_bad en user obj o : en obj o = false -> addShared en user obj [o] = (user, true).
Proof. intros E. unfold addShared. cbn [addRef]. unfold addOne. rewrite E. reflexivity. Qed.
Lemma listing_in addrs user obj P : uinv user obj P -> In obj addrs ->
  forall s o, (exists os, In (s, os) (listing addrs user) /\ In o os) <-> s = obj /\ P o.
Proof.
  intros (A & B & C) I s o. split.
  - intros (os & J & K). apply in_flat_map in J. destruct J as (t & T & J).
    destruct (inputs user t) as [l|] eqn:E; [|destruct J]. destruct J as [[= <- <-]|[]].
    destruct (Nat.eq_dec t obj) as [->|Ne]; [|rewrite (A t Ne) in E; discriminate].
    split; [reflexivity|]. apply B. exists l. auto.
  - intros [-> K]. apply B in K. destruct K as (l & E & K). exists l. split; [|exact K].
    apply in_flat_map. exists obj. split; [exact I|]. change (inputs user obj = Some l) in E. rewrite E. cbn. auto.
Qed.

Section Parse.
Variables (N : net) (rank : nat -> nat -> nat) (D fuel : nat) (U : list call) (en : nat -> nat -> bool) (addrs : list nat).
Hypothesis FE : forwarding_ends N rank D.
Hypothesis UC : forall c d, In c U -> dep N c d -> In d U.
Hypothesis FU : length U * (D + 2) + D + 2 <= fuel.

(* some Inputs of the list keeps s alive *)
Definition alive (us : list state) (s : nat) : Prop := exists u, In u us /\ owns u s.
Lemma u_add_ok user obj P g ins : HI N (u_graph g) ins -> uinv user obj P -> In obj addrs ->
  (forall o c, P o -> feeds N obj o c -> In c U) ->
  exists g' ins', u_add fuel N addrs user g = Ok g' /\ HI N (u_graph g') ins' /\
    (forall s o, (exists os, In (s, os) ins' /\ In o os) <-> (exists os, In (s, os) ins /\ In o os) \/ (s = obj /\ P o)) /\
    (forall s, alive (u_users g') s <-> alive (u_users g) s \/ (s = obj /\ exists o, P o)).
Proof.
  intros H UI IA B. pose proof (listing_in addrs user obj P UI IA) as L.
  destruct (cg_add_HI N U rank D FE UC fuel FU (listing addrs user) (u_graph g) ins H) as (st & A & H').
  { intros s os o c J K F. destruct (proj1 (L s o)) as [-> PO]; [eauto|]. eauto. }
  unfold u_add. rewrite A. cbn [bind]. eexists _, _. split; [reflexivity|]. split; [exact H'|]. split.
  - intros s o. rewrite <- L. split.
    + intros (os & J & K). apply in_app_or in J. destruct J; [left|right]; eauto.
    + intros [(os & J & K)|(os & J & K)]; exists os; (split; [apply in_or_app; auto|exact K]).
  - intros s. unfold alive. cbn [u_users]. destruct UI as (_ & _ & C). rewrite <- C. split.
    + intros (u & J & K). apply in_app_or in J. destruct J as [J|[<-|[]]]; eauto.
    + intros [(u & J & K)|K]; [exists u|exists user]; (split; [apply in_or_app; cbn; auto|exact K]).
Qed.

Lemma parse_spec args : forall obj P user g ins, HI N (u_graph g) ins -> uinv user obj P ->
  (forall s, In (Obj s) (Obj obj :: args) -> In s addrs) ->
  (forall s o c, asked obj args s o -> feeds N s o c -> In c U) -> (forall o c, P o -> feeds N obj o c -> In c U) ->
  ((exists s o, asked obj args s o /\ en s o = false) /\ parse fuel N en addrs g user obj args = Throw) \/
  ((forall s o, asked obj args s o -> en s o = true) /\
   exists g' ins', parse fuel N en addrs g user obj args = Ok g' /\ HI N (u_graph g') ins' /\
    (forall s o, (exists os, In (s, os) ins' /\ In o os) <->
       (exists os, In (s, os) ins /\ In o os) \/ (s = obj /\ P o) \/ asked obj args s o) /\
    (forall s, alive (u_users g') s <-> alive (u_users g) s \/ (s = obj /\ exists o, P o) \/ exists o, asked obj args s o)).
Proof.
  induction args as [|[t|i] args IH]; intros obj P user g ins H UI IA BA BP; cbn [parse].
  - right. split; [intros s o Q; destruct (asked_nil _ _ _ Q)|].
    destruct (u_add_ok user obj P g ins H UI (IA obj (or_introl eq_refl)) BP) as (g' & ins' & A & H' & L & O).
    exists g', ins'. split; [exact A|]. split; [exact H'|]. split.
    + intros s o. rewrite L. pose proof (asked_nil obj s o). tauto.
    + intros s. rewrite O. split; [tauto|]. intros [K|[K|[o K]]]; auto. destruct (asked_nil _ _ _ K).
  - destruct (u_add_ok user obj P g ins H UI (IA obj (or_introl eq_refl)) BP) as (g' & ins' & A & H' & L & O).
    rewrite A. cbn [bind].
    destruct (IH t (fun _ => False) empty g' ins' H' (uinv_empty t)) as [[(s & o & K & E) T]|[AE (g2 & ins2 & T & H2 & L2 & O2)]].
    + intros s K. apply IA. cbn. destruct K as [K|K]; auto.
    + intros s o c K. apply BA. apply asked_obj. exact K.
    + intros o c [].
    + left. split; [|exact T]. exists s, o. split; [apply asked_obj; exact K|exact E].
    + right. split; [intros s o K; exact (AE s o (proj1 (asked_obj _ _ _ _ _) K))|].
      exists g2, ins2. split; [exact T|]. split; [exact H2|]. split.
      * intros s o. rewrite L2, L, asked_obj. tauto.
      * intros s. rewrite O2, O. split.
        -- intros [[K|K]|[[_ [o []]]|[o K]]]; auto. right. right. exists o. apply asked_obj. exact K.
        -- intros [K|[K|[o K]]]; auto. right. right. exists o. exact (proj1 (asked_obj _ _ _ _ _) K).
  - destruct (en obj i) eqn:E.
    + destruct (uinv_add en user obj P i UI E) as (user' & A & UI'). rewrite A.
      destruct (IH obj _ user' g ins H UI') as [[(s & o & K & E') T]|[AE (g2 & ins2 & T & H2 & L2 & O2)]].
      * intros s K. apply IA. cbn. destruct K as [K|K]; auto.
      * intros s o c K. apply BA. apply asked_out. auto.
      * intros o c [->|K]; [|exact (BP o c K)]. apply BA. apply asked_out. auto.
      * left. split; [|exact T]. exists s, o. split; [apply asked_out; auto|exact E'].
      * right. split.
        { intros s o K. apply (proj1 (asked_out _ _ _ _ _)) in K. destruct K as [[-> ->]|K]; auto. }
        exists g2, ins2. split; [exact T|]. split; [exact H2|]. split.
        -- intros s o. rewrite L2, asked_out. tauto.
        -- intros s. rewrite O2. split.
           ++ intros [K|[[-> [o [->|K]]]|[o K]]]; auto.
              ** right. right. exists i. apply asked_out. auto.
              ** right. left. eauto.
              ** right. right. exists o. apply asked_out. auto.
           ++ intros [K|[[-> [o K]]|[o K]]]; auto.
              ** right. left. eauto.
              ** apply (proj1 (asked_out _ _ _ _ _)) in K. destruct K as [[-> ->]|K]; [right; left; eauto|right; right; eauto].
    + left. rewrite (addShared_bad en user obj i E). split; [|reflexivity]. exists obj, i. split; [apply asked_out; auto|exact E].
Qed.
End Parse.

Lemma needs_needed N obj args ins : (forall s o, (exists os, In (s, os) ins /\ In o os) <-> asked obj args s o) ->
  forall c, needed N ins c <-> needs N obj args c.
Proof.
  intros L c. split.
  - intros (s & os & o & c0 & I & J & F & R). exists s, o, c0. split; [apply L; eauto|auto].
  - intros (s & o & c0 & A & F & R). apply L in A. destruct A as (os & I & J). exists s, os, o, c0. auto.
Qed.

Lemma generate_spec N rank D fuel U en addrs obj args :
  forwarding_ends N rank D -> finitely N obj args U -> length U * (D + 2) + D + 2 <= fuel -> lists_objects obj args addrs ->
  ((exists s o, asked obj args s o /\ en s o = false) /\ generate fuel N en addrs obj args = Throw) \/
  ((forall s o, asked obj args s o -> en s o = true) /\
   match generate fuel N en addrs obj args with
   | Ok (us, p) => (forall s, alive us s <-> exists o, asked obj args s o) /\ NoDup p /\
       (forall c, In c p -> needs N obj args c) /\ (~ cyclic N obj args -> forall c, needs N obj args c -> In c p) /\
       (forall c d, In c p -> dep N c d -> called_before p d c)
   | Throw => cyclic N obj args
   | UB => False
   end).
Proof.
  intros FE [F1 F2] FU [_ IA]. unfold generate.
  destruct (parse_spec N rank D fuel U en addrs FE F2 FU args obj (fun _ => False) empty (mkU cg_init []) [] (HI_init N) (uinv_empty obj) IA F1)
    as [[E T]|[AE (g & ins & T & H & L & O)]].
  - intros o c [].
  - left. rewrite T. auto.
  - right. split; [exact AE|]. rewrite T. cbn [bind].
    assert (L' : forall s o, (exists os, In (s, os) ins /\ In o os) <-> asked obj args s o).
    { intros s o. rewrite L. split; [intros [(os & [] & _)|[[_ []]|K]]; exact K|auto]. }
    pose proof (needs_needed N obj args ins L') as NN.
    assert (CY : dep_cycle N ins <-> cyclic N obj args).
    { split; intros (c & d & A & B); exists c, d; (split; [apply NN; exact A|exact B]). }
    pose proof (plan_general N (u_graph g) ins H) as PG. pose proof (plan_acyclic N (u_graph g) ins H) as PA.
    destruct (cg_update (u_graph g)) as [p| |]; cbn [bind]; [|apply CY; exact PG|exact PG].
    destruct PG as (ND & PN & PO). split.
    { intros s. rewrite O. split; [intros [(u & [] & _)|[[_ [o []]]|K]]; exact K|auto]. }
    split; [exact ND|]. split; [intros c I; apply NN, PN, I|]. split; [|exact PO].
    intros NC c I. destruct PA as (p' & E & _ & Q & _); [intros K; apply NC, CY, K|]. injection E as <-. apply Q, NN, I.
Qed.

(* execution *)
Lemma pair_eqb_spec (a b : nat * nat) : reflect (a = b) (pair_eqb a b).
Proof.
  destruct a as [a1 a2], b as [b1 b2]. unfold pair_eqb. cbn [fst snd].
  destruct (Nat.eqb_spec a1 b1), (Nat.eqb_spec a2 b2); cbn; constructor; congruence.
Qed.
Section Run.
Context {V : Type} (N : net) (F : call -> (call -> V) -> V).
Hypothesis RD : reads_deps N F.
Lemma run_app p q m : run F (p ++ q) m = run F q (run F p m).
Proof. unfold run. apply fold_left_app. Qed.
Lemma run_other p : forall m c, ~ In c p -> run F p m c = m c.
Proof.
  induction p as [|a p IH]; intros m c I; [reflexivity|]. change (run F (a :: p) m) with (run F p (fun d => if pair_eqb a d then F a m else m d)).
  rewrite IH by (intros K; apply I; right; exact K). destruct (pair_eqb_spec a c) as [->|_]; [destruct I; left; reflexivity|reflexivity].
Qed.
(* a plan with every call once, after those it depends on *)
Definition ordered (p : list call) : Prop := NoDup p /\ forall c d, In c p -> dep N c d -> called_before p d c.
Lemma before_split p l1 c l2 d : NoDup p -> p = l1 ++ c :: l2 -> called_before p d c -> In d l1.
Proof.
  intros ND -> (k1 & k2 & k3 & E).
  assert (K : forall (x1 x2 : list call) a y1 y2, NoDup (x1 ++ a :: y1) -> x1 ++ a :: y1 = x2 ++ a :: y2 -> x1 = x2).
  { induction x1 as [|x x1 IH]; intros x2 a y1 y2 ND' E'; destruct x2 as [|x' x2]; cbn in E'; auto.
    - injection E' as -> ->. apply NoDup_cons_iff in ND'. destruct ND' as [H _]. destruct H. apply in_or_app. right. left. reflexivity.
    - injection E' as -> E'. apply NoDup_cons_iff in ND'. destruct ND' as [H _]. destruct H. apply in_or_app. right. left. reflexivity.
    - injection E' as -> E'. f_equal. apply (IH x2 a y1 y2); auto. apply NoDup_cons_iff in ND'. tauto. }
  assert (Q : l1 = k1 ++ d :: k2).
  { apply (K _ _ c l2 k3 ND). rewrite <- app_assoc. exact E. }
  rewrite Q. apply in_or_app. right. left. reflexivity.
Qed.
Lemma run_fixed p m : ordered p -> forall c, In c p -> run F p m c = F c (run F p m).
Proof.
  intros [ND O] c I. apply in_split in I. destruct I as (l1 & l2 & E).
  assert (ND' := ND). rewrite E in ND'.
  assert (C2 : ~ In c l2). { apply NoDup_remove_2 in ND'. intros K. apply ND'. apply in_or_app. auto. }
  assert (R : run F p m = run F l2 (fun d => if pair_eqb c d then F c (run F l1 m) else run F l1 m d)).
  { rewrite E, run_app. reflexivity. }
  rewrite R. rewrite run_other by exact C2. destruct (pair_eqb_spec c c) as [_|Q]; [|congruence].
  apply RD. intros d Dd. assert (I : In c p) by (rewrite E; apply in_or_app; right; left; reflexivity).
  pose proof (before_split p l1 c l2 d ND E (O c d I Dd)) as L1.
  assert (D2 : ~ In d (c :: l2)).
  { intros K. apply in_split in L1. destruct L1 as (a & b & ->). rewrite <- app_assoc in ND'. cbn in ND'.
    apply NoDup_remove_2 in ND'. apply ND'. apply in_or_app. right. apply in_or_app. auto. }
  rewrite (run_other l2) by (intros K; apply D2; right; exact K).
  destruct (pair_eqb_spec c d) as [->|_]; [destruct D2; left; reflexivity|reflexivity].
Qed.
Lemma unique_on p : ordered p -> forall m m', (forall c, In c p -> m c = F c m) -> (forall c, In c p -> m' c = F c m') ->
  forall c, In c p -> m c = m' c.
Proof.
  intros [ND O] m m' A B.
  assert (K : forall n c l1 l2, length l1 = n -> p = l1 ++ c :: l2 -> m c = m' c).
  { induction n as [n IH] using lt_wf_ind. intros c l1 l2 L E.
    assert (I : In c p) by (rewrite E; apply in_or_app; right; left; reflexivity).
    rewrite (A c I), (B c I). apply RD. intros d Dd. pose proof (before_split p l1 c l2 d ND E (O c d I Dd)) as J.
    apply in_split in J. destruct J as (a & b & ->). apply (IH (length a)) with (l1 := a) (l2 := b ++ c :: l2).
    - rewrite app_length in L. cbn in L. lia.
    - reflexivity.
    - rewrite E, <- app_assoc. reflexivity. }
  intros c I. apply in_split in I. destruct I as (l1 & l2 & E). eapply K; eauto.
Qed.
End Run.
