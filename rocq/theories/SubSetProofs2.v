(* Proofs for C54: finalize. *)
From Coq Require Import List Bool Arith QArith Lia Permutation Relations.
Import ListNotations.
From Verif Require Import Base QSum SubstModel SubSetModel SubSetSpec SubSetProofs.
From Verif Require Import GraphSpec GraphProofs OrderProofs TarjanProofs.
From Verif Require GraphModel SubstSpec GraphProps.
Local Open Scope nat_scope.

Lemma mapR_Forall2 {A B} (f : A -> res B) l : forall r, mapR f l = Ok r -> Forall2 (fun a b => f a = Ok b) l r.
Proof.
  induction l as [|a l IH]; intros r E; simpl in E; [injection E as <-; constructor|].
  destruct (f a) as [b| |] eqn:F; cbn [bind] in E; try discriminate. destruct (mapR f l) as [r'| |]; cbn [bind] in E; try discriminate.
  injection E as <-. constructor; auto.
Qed.
Lemma Forall2_nth {A B} (R : A -> B -> Prop) l l' : Forall2 R l l' -> forall i b, nth_error l' i = Some b -> exists a, nth_error l i = Some a /\ R a b.
Proof. induction 1 as [|a b l l' H F IH]; intros [|i] x E; simpl in *; try discriminate; [injection E as <-; eauto|eauto]. Qed.
Lemma Forall2_nth' {A B} (R : A -> B -> Prop) l l' : Forall2 R l l' -> forall i a, nth_error l i = Some a -> exists b, nth_error l' i = Some b /\ R a b.
Proof. induction 1 as [|a b l l' H F IH]; intros [|i] x E; simpl in *; try discriminate; [injection E as <-; eauto|eauto]. Qed.
Lemma Forall2_impl {A B} (R R' : A -> B -> Prop) l l' : (forall a b, R a b -> R' a b) -> Forall2 R l l' -> Forall2 R' l l'.
Proof. intros H. induction 1; constructor; auto. Qed.
Lemma Forall2_len {A B} (R : A -> B -> Prop) l l' : Forall2 R l l' -> length l = length l'.
Proof. induction 1; simpl; congruence. Qed.
Lemma nthR_Some {A} (l : list A) i x : GraphModel.nthR l i = Ok x <-> nth_error l i = Some x.
Proof. unfold GraphModel.nthR. destruct (nth_error l i); split; intros H; congruence. Qed.
Lemma NoDup_nth_eq {A} (l : list A) i j x : NoDup l -> nth_error l i = Some x -> nth_error l j = Some x -> i = j.
Proof.
  intros N A1 A2. apply (proj1 (NoDup_nth_error l) N); [apply nth_error_Some; congruence|congruence].
Qed.
Lemma NoDup_flat {A B} (f : A -> list B) l :
  (forall p a, nth_error l p = Some a -> NoDup (f a)) ->
  (forall p q a b v, nth_error l p = Some a -> nth_error l q = Some b -> In v (f a) -> In v (f b) -> p = q) -> NoDup (flat_map f l).
Proof.
  induction l as [|a l IH]; intros H1 H2; simpl; [constructor|].
  assert (N : NoDup (flat_map f l)) by (apply IH; [intros p b E; apply (H1 (S p) b E)|intros p q b c v E1 E2 I1 I2; specialize (H2 (S p) (S q) b c v E1 E2 I1 I2); lia]).
  pose proof (H1 0 a eq_refl) as Na. revert Na.
  assert (D : forall v, In v (f a) -> ~ In v (flat_map f l)).
  { intros v I1 I2. apply in_flat_map in I2. destruct I2 as (b & Ib & I2). apply In_nth_error in Ib. destruct Ib as [q Eq].
    specialize (H2 0 (S q) a b v eq_refl Eq I1 I2). discriminate. }
  revert D. generalize (f a). induction l0 as [|b l0 IH0]; intros D Na; simpl; [exact N|]. inversion Na as [|? ? Nb Na']. subst. constructor.
  - rewrite in_app_iff. intros [I|I]; [contradiction|]. apply (D b); [left; reflexivity|exact I].
  - apply IH0; [|exact Na']. intros v I. apply D. right. exact I.
Qed.
Lemma concat_NoDup_pos {A} (l : list (list A)) p q a b x : NoDup (concat l) -> nth_error l p = Some a -> nth_error l q = Some b -> In x a -> In x b -> p = q.
Proof.
  revert p q. induction l as [|c l IH]; intros p q N E1 E2 I1 I2; [destruct p; discriminate|]. simpl in N.
  assert (DJ : forall y, In y c -> ~ In y (concat l)).
  { clear - N. induction c as [|z c IHc]; intros y I; [destruct I|]. simpl in N. inversion N as [|? ? N1 N2]. subst. destruct I as [<-|I].
    - intros K. apply N1. apply in_app_iff. auto.
    - apply IHc; assumption. }
  assert (NC : NoDup (concat l)).
  { clear - N. induction c as [|z c IHc]; [exact N|]. simpl in N. inversion N. auto. }
  destruct p as [|p], q as [|q]; simpl in *; [reflexivity| | |].
  - injection E1 as <-. exfalso. apply (DJ x I1). apply in_concat. exists b. split; [eapply nth_error_In; eassumption|exact I2].
  - injection E2 as <-. exfalso. apply (DJ x I2). apply in_concat. exists a. split; [eapply nth_error_In; eassumption|exact I1].
  - f_equal. eauto.
Qed.

Section P.
Variable sz : nat -> nat.
Variable cdef : nat -> cons.
Notation acceptable := (acceptable sz cdef).
Notation depends := (depends cdef).

(* the classes of mutual dependency and the groups *)
Record fin (pool : list ssub) (cls gs : list (list nat)) : Prop := {
  f_perm : Permutation (concat cls) (seq 0 (length pool));
  f_ne : forall c, In c cls -> c <> [];
  f_scc : forall c x y, In c cls -> In x c -> (In y c <-> scc (depends pool) x y);
  f_dec : forall i j ci cj x y, nth_error cls i = Some ci -> nth_error cls j = Some cj -> In x ci -> In y cj -> depends pool x y -> j <= i;
  f_cover : forall i, i < length cls -> exists g, In g gs /\ In i g;
  f_range : forall g i, In g gs -> In i g -> i < length cls;
  f_same : forall p q gp gq i, nth_error gs p = Some gp -> nth_error gs q = Some gq -> In i gp -> In i gq -> p = q;
  f_link : forall p q gp gq i j ci cj x y, nth_error gs p = Some gp -> nth_error gs q = Some gq -> In i gp -> In j gq ->
    nth_error cls i = Some ci -> nth_error cls j = Some cj -> In x ci -> In y cj -> depends pool x y -> p = q;
  f_nodup : forall g, In g gs -> NoDup g;
  f_before : forall g i j ci cj x y, In g gs -> In i g -> In j g -> i <> j ->
    nth_error cls i = Some ci -> nth_error cls j = Some cj -> In x ci -> In y cj -> depends pool x y -> before g j i }.

Lemma finalize_graph t : inv sz cdef t -> exists cls g gs, GraphModel.reduce (deps t) = Ok (cls, g) /\ GraphModel.groupedOrder g = Ok gs /\ fin (subs t) cls gs.
Proof.
  intros [IA (a & W & N & H)].
  destruct (reduce_ok (deps t) a W) as (cls & g & h' & R & PM & SC & V & RUN & AN & ED & DEC).
  pose proof (GraphProps.reached' h' g V RUN) as W'.
  assert (AC : ~ cyclic (aE (agraph_of h'))).
  { assert (RI : forall x y, reach (aE (agraph_of h')) x y -> y <= x).
    { intros x y Q. induction Q as [x y Hh|x|x y z _ Q1 _ Q2]; [apply DEC in Hh; lia|lia|lia]. }
    intros [x [y [E Q]]]. apply DEC in E. apply RI in Q. lia. }
  destruct (grouped_acyclic g _ W' AC) as (gs & GO & CV & LK & GR). exists cls, g, gs. split; [exact R|]. split; [exact GO|].
  rewrite AN in *.
  assert (EX : forall i j ci cj x y, nth_error cls i = Some ci -> nth_error cls j = Some cj -> In x ci -> In y cj -> depends (subs t) x y -> i <> j -> aE (agraph_of h') i j).
  { intros i j ci cj x y C1 C2 I1 I2 D NE. apply ED. split; [exact NE|]. exists x, y. split; [exists ci; auto|]. split; [exists cj; auto|]. apply H, D. }
  split.
  - rewrite <- N. exact PM.
  - intros c I. apply (SC c I).
  - intros c x y I X. rewrite (proj2 (SC c I) x y X). unfold scc, reach.
    assert (EQ : forall u v, clos_refl_trans nat (aE a) u v <-> clos_refl_trans nat (depends (subs t)) u v).
    { intros u v. split; induction 1 as [u v K|u|u v w _ K1 _ K2]; try (apply rt_refl); try (apply rt_step; apply H, K); eapply rt_trans; eassumption. }
    rewrite !EQ. reflexivity.
  - intros i j ci cj x y C1 C2 I1 I2 D. destruct (Nat.eq_dec i j); [lia|]. apply Nat.lt_le_incl, DEC. eapply EX; eassumption.
  - exact CV.
  - intros g0 i I J. apply In_nth_error in I. destruct I as [p E]. apply (LK p p g0 g0 i i E E J J).
  - intros p q gp gq i E1 E2 J1 J2. apply (LK p q gp gq i i E1 E2 J1 J2). apply rst_refl.
  - intros p q gp gq i j ci cj x y E1 E2 J1 J2 C1 C2 I1 I2 D. apply (LK p q gp gq i j E1 E2 J1 J2).
    destruct (Nat.eq_dec i j) as [->|NE]; [apply rst_refl|]. apply rst_step. eapply EX; eassumption.
  - intros g0 I. apply (GR g0 I).
  - intros g0 i j ci cj x y I J1 J2 NE C1 C2 I1 I2 D. apply (proj2 (proj2 (GR g0 I)) i j J1). eapply EX; eassumption.
Qed.

(* a substitution of a unit stands for those of its class *)
Definition merged (pool : list ssub) (cl : list nat) (s : ssub) : Prop :=
  acceptable s /\
  (forall c, In c (ss_cs s) <-> exists a x, In a cl /\ nth_error pool a = Some x /\ In c (ss_cs x)) /\
  (forall v, In v (ss_xs s) <-> exists a x, In a cl /\ nth_error pool a = Some x /\ In v (ss_xs x)).
Lemma In_pool {B} (f : ssub -> list B) pool cl l : mapR (GraphModel.nthR pool) cl = Ok l ->
  forall b, In b (flat_map f l) <-> exists a x, In a cl /\ nth_error pool a = Some x /\ In b (f x).
Proof.
  intros E b. apply mapR_Forall2 in E. rewrite in_flat_map. split.
  - intros (x & I & J). apply In_nth_error in I. destruct I as [k K]. destruct (Forall2_nth _ _ _ E _ _ K) as (a & A1 & A2).
    exists a, x. split; [eapply nth_error_In; eassumption|]. split; [now apply nthR_Some|exact J].
  - intros (a & x & I & X & J). apply In_nth_error in I. destruct I as [k K]. destruct (Forall2_nth' _ _ _ E _ _ K) as (y & Y1 & Y2).
    apply nthR_Some in Y2. exists x. split; [|exact J]. rewrite X in Y2. injection Y2 as <-. eapply nth_error_In; eassumption.
Qed.
Lemma oneOf_merged pool cl s : (forall x, In x pool -> acceptable x) -> oneOf sz cdef pool cl = Ok s -> merged pool cl s.
Proof.
  intros A E. destruct cl as [|a [|b cl]]; [discriminate| |].
  - cbn [oneOf] in E. apply nthR_Some in E. split; [apply A; eapply nth_error_In; eassumption|].
    split; intros c; (split; [intros I; exists a, s; simpl; auto|intros (a' & x & [<-|[]] & X & I); rewrite E in X; injection X as <-; exact I]).
  - cbn [oneOf] in E. remember (a :: b :: cl) as cls eqn:Ecl. clear Ecl. destruct (mapR (GraphModel.nthR pool) cls) as [l| |] eqn:M; cbn [bind] in E; try discriminate.
    unfold group in E. apply newSub_ok in E. destruct E as [-> AC]. split; [exact AC|]. cbn [ss_cs ss_xs].
    split; intros c; rewrite In_sorted; now apply In_pool.
Qed.
Lemma merged_edge pool ci cj si sj c v : merged pool ci si -> merged pool cj sj -> In c (ss_cs si) -> In v (c_vars (k_cst (cdef c))) -> In v (ss_xs sj) ->
  exists x y, In x ci /\ In y cj /\ depends pool x y.
Proof.
  intros (_ & M1 & _) (_ & _ & M2) I1 I2 I3. apply M1 in I1. apply M2 in I3. destruct I1 as (x & sx & X1 & X2 & X3). destruct I3 as (y & sy & Y1 & Y2 & Y3).
  exists x, y. split; [exact X1|]. split; [exact Y1|]. exists sx, sy, c, v. auto.
Qed.

(* the units *)
Definition unit_of (pool : list ssub) (cls : list (list nat)) (g : list nat) (u : unit_) : Prop :=
  Forall2 (fun i s => exists cl, nth_error cls i = Some cl /\ merged pool cl s) g (n_subs u).
Lemma extract_merged pool cls g l : (forall x, In x pool -> acceptable x) -> extract sz cdef pool cls g = Ok l ->
  Forall2 (fun i s => exists cl, nth_error cls i = Some cl /\ merged pool cl s) g l.
Proof.
  intros A E. apply mapR_Forall2 in E. eapply Forall2_impl; [|exact E]. cbv beta. intros i s H.
  destruct (GraphModel.nthR cls i) as [cl| |] eqn:C; cbn [bind] in H; try discriminate. exists cl. split; [now apply nthR_Some|]. now apply oneOf_merged.
Qed.
Lemma buildUnits_ok pool cls mm : forall gs us0 us, buildUnits sz cdef pool cls mm gs us0 = Ok (us, true) ->
  exists new, us = us0 ++ new /\ Forall2 (fun g u => extract sz cdef pool cls g = Ok (n_subs u)) gs new /\
    forall p u, nth_error new p = Some u -> u = newUnit sz cdef (n_subs u) (mm (length us0 + p)).
Proof.
  induction gs as [|g gs IH]; intros us0 us E; simpl in E.
  - injection E as <-. exists []. split; [now rewrite app_nil_r|]. split; [constructor|]. intros [|p] u H; discriminate.
  - destruct (extract sz cdef pool cls g) as [l| |] eqn:X; try discriminate. destruct (IH _ _ E) as (new & -> & F & M).
    exists (newUnit sz cdef l (mm (length us0)) :: new). split; [now rewrite <- app_assoc|]. split; [constructor; [exact X|exact F]|].
    intros [|p] u H; simpl in H.
    + injection H as <-. rewrite Nat.add_0_r. reflexivity.
    + rewrite app_length in M. simpl in M. replace (length us0 + S p) with (length us0 + 1 + p) by lia. auto.
Qed.

Record unitsOk (pool : list ssub) (us : list unit_) : Prop := {
  uo_acc : forall u s, In u us -> In s (n_subs u) -> acceptable s;
  uo_cs : forall c, (exists u s, In u us /\ In s (n_subs u) /\ In c (ss_cs s)) <-> (exists s, In s pool /\ In c (ss_cs s));
  uo_vs : forall v, (exists u s, In u us /\ In s (n_subs u) /\ In v (ss_xs s)) <-> (exists s, In s pool /\ In v (ss_xs s));
  uo_nodup : NoDup (flat_map (fun u => flat_map ss_xs (n_subs u)) us);
  uo_order : forall u l1 s l2 c v, In u us -> n_subs u = l1 ++ s :: l2 -> In c (ss_cs s) -> In v (c_vars (k_cst (cdef c))) -> ~ In v (flat_map ss_xs l2);
  uo_cross : forall p q u u' s s' c v, nth_error us p = Some u -> nth_error us q = Some u' -> In s (n_subs u) -> In s' (n_subs u') ->
    In c (ss_cs s) -> In v (c_vars (k_cst (cdef c))) -> In v (ss_xs s') -> p = q }.

Lemma before_pos (l : list nat) x y i j : NoDup l -> before l x y -> nth_error l i = Some x -> nth_error l j = Some y -> i < j.
Proof.
  intros N (l1 & l2 & l3 & E) X Y. subst l.
  assert (P1 : nth_error (l1 ++ x :: l2 ++ y :: l3) (length l1) = Some x) by (rewrite nth_error_app2, Nat.sub_diag by lia; reflexivity).
  assert (P2 : nth_error (l1 ++ x :: l2 ++ y :: l3) (length l1 + S (length l2)) = Some y).
  { rewrite nth_error_app2 by lia. replace (length l1 + S (length l2) - length l1) with (S (length l2)) by lia. simpl.
    rewrite nth_error_app2, Nat.sub_diag by lia. reflexivity. }
  rewrite (NoDup_nth_eq _ _ _ _ N X P1), (NoDup_nth_eq _ _ _ _ N Y P2). lia.
Qed.
Lemma In_nth {A} (l : list A) x : In x l -> exists i, nth_error l i = Some x.
Proof. apply In_nth_error. Qed.

Lemma units_ok pool cls gs us : (forall x, In x pool -> acceptable x) -> fin pool cls gs -> Forall2 (unit_of pool cls) gs us -> unitsOk pool us.
Proof.
  intros A F U.
  assert (PL : forall p k u s, nth_error us p = Some u -> nth_error (n_subs u) k = Some s ->
            exists g i cl, nth_error gs p = Some g /\ nth_error g k = Some i /\ nth_error cls i = Some cl /\ merged pool cl s).
  { intros p k u s E1 E2. destruct (Forall2_nth _ _ _ U _ _ E1) as (g & G1 & G2). destruct (Forall2_nth _ _ _ G2 _ _ E2) as (i & I1 & cl & I2 & I3). exists g, i, cl. auto. }
  assert (CV : forall a x, nth_error pool a = Some x -> exists u s cl, In u us /\ In s (n_subs u) /\ In a cl /\ merged pool cl s).
  { intros a x E. assert (I : In a (concat cls)).
    { apply (Permutation_in _ (Permutation_sym (f_perm _ _ _ F))). apply in_seq. split; [lia|]. apply nth_error_Some. congruence. }
    apply in_concat in I. destruct I as (cl & I1 & I2). apply In_nth in I1. destruct I1 as [i I1].
    destruct (f_cover _ _ _ F i ltac:(apply nth_error_Some; congruence)) as (g & G1 & G2). apply In_nth in G1, G2. destruct G1 as [p G1]. destruct G2 as [k G2].
    destruct (Forall2_nth' _ _ _ U _ _ G1) as (u & U1 & U2). destruct (Forall2_nth' _ _ _ U2 _ _ G2) as (s & S1 & cl' & S2 & S3).
    rewrite I1 in S2. injection S2 as <-. exists u, s, cl. split; [eapply nth_error_In; eassumption|]. split; [eapply nth_error_In; eassumption|]. auto. }
  assert (ACC : forall u s, In u us -> In s (n_subs u) -> acceptable s).
  { intros u s I J. apply In_nth in I, J. destruct I as [p I]. destruct J as [k J]. destruct (PL p k u s I J) as (g & i & cl & _ & _ & _ & M). apply M. }
  (* two places of the same variable, or of a constraint and a variable *)
  assert (EDGE : forall p k u s q l u' s' c v g i cl g' j cl', nth_error us p = Some u -> nth_error (n_subs u) k = Some s ->
       nth_error us q = Some u' -> nth_error (n_subs u') l = Some s' -> In c (ss_cs s) -> In v (c_vars (k_cst (cdef c))) -> In v (ss_xs s') ->
       nth_error gs p = Some g -> nth_error g k = Some i -> nth_error cls i = Some cl -> merged pool cl s ->
       nth_error gs q = Some g' -> nth_error g' l = Some j -> nth_error cls j = Some cl' -> merged pool cl' s' ->
       p = q /\ j <= i /\ (i <> j -> p = q -> l < k)).
  { intros p k u s q l u' s' c v g i cl g' j cl' E1 E2 E3 E4 I1 I2 I3 G1 G2 G3 M H1 H2 H3 M'.
    destruct (merged_edge _ _ _ _ _ _ _ M M' I1 I2 I3) as (x & y & X & Y & D).
    assert (PQ : p = q) by (eapply (f_link _ _ _ F p q g g' i j); eauto using nth_error_In). split; [exact PQ|].
    split; [eapply (f_dec _ _ _ F i j); eauto|]. intros NE _. subst q. rewrite G1 in H1. injection H1 as <-.
    apply (before_pos g j i l k); [apply (f_nodup _ _ _ F); eapply nth_error_In; eassumption| |exact H2|exact G2].
    eapply (f_before _ _ _ F g i j); eauto using nth_error_In. }
  assert (SAME : forall p k u s q l u' s' v, nth_error us p = Some u -> nth_error (n_subs u) k = Some s ->
       nth_error us q = Some u' -> nth_error (n_subs u') l = Some s' -> In v (ss_xs s) -> In v (ss_xs s') -> p = q /\ k = l).
  { intros p k u s q l u' s' v E1 E2 E3 E4 I1 I2.
    destruct (PL _ _ _ _ E1 E2) as (g & i & cl & G1 & G2 & G3 & M). destruct (PL _ _ _ _ E3 E4) as (g' & j & cl' & H1 & H2 & H3 & M').
    assert (A1 : acceptable s) by apply M. assert (A2 : acceptable s') by apply M'.
    destruct A1 as (_ & _ & _ & A1 & _). destruct A2 as (_ & _ & _ & A2 & _). destruct (A1 v I1) as (c & C1 & C2). destruct (A2 v I2) as (c' & C1' & C2').
    destruct (EDGE p k u s q l u' s' c v g i cl g' j cl' E1 E2 E3 E4 C1 C2 I2 G1 G2 G3 M H1 H2 H3 M') as (PQ & L1 & _).
    destruct (EDGE q l u' s' p k u s c' v g' j cl' g i cl E3 E4 E1 E2 C1' C2' I1 H1 H2 H3 M' G1 G2 G3 M) as (_ & L2 & _).
    split; [exact PQ|]. assert (i = j) by lia. subst j q. rewrite G1 in H1. injection H1 as <-.
    apply (NoDup_nth_eq g k l i); [apply (f_nodup _ _ _ F); eapply nth_error_In; eassumption|exact G2|exact H2]. }
  split.
  - exact ACC.
  - intros c. split.
    + intros (u & s & I & J & K). apply In_nth in I, J. destruct I as [p I]. destruct J as [k J]. destruct (PL _ _ _ _ I J) as (g & i & cl & _ & _ & _ & M).
      apply (proj1 (proj2 M)) in K. destruct K as (a & x & _ & X & K). exists x. split; [eapply nth_error_In; eassumption|exact K].
    + intros (x & I & K). apply In_nth in I. destruct I as [a I]. destruct (CV a x I) as (u & s & cl & U1 & U2 & U3 & M). exists u, s. split; [exact U1|]. split; [exact U2|].
      apply (proj1 (proj2 M)). exists a, x. auto.
  - intros v. split.
    + intros (u & s & I & J & K). apply In_nth in I, J. destruct I as [p I]. destruct J as [k J]. destruct (PL _ _ _ _ I J) as (g & i & cl & _ & _ & _ & M).
      apply (proj2 (proj2 M)) in K. destruct K as (a & x & _ & X & K). exists x. split; [eapply nth_error_In; eassumption|exact K].
    + intros (x & I & K). apply In_nth in I. destruct I as [a I]. destruct (CV a x I) as (u & s & cl & U1 & U2 & U3 & M). exists u, s. split; [exact U1|]. split; [exact U2|].
      apply (proj2 (proj2 M)). exists a, x. auto.
  - apply NoDup_flat.
    + intros p u E. apply NoDup_flat.
      * intros k s K. assert (AS : acceptable s) by (apply (ACC u); eapply nth_error_In; eassumption). apply AS.
      * intros k l s s' v K L I1 I2. apply (SAME p k u s p l u s' v E K E L I1 I2).
    + intros p q u u' v E1 E2 I1 I2. apply in_flat_map in I1, I2. destruct I1 as (s & S1 & S2). destruct I2 as (s' & T1 & T2). apply In_nth in S1, T1.
      destruct S1 as [k S1]. destruct T1 as [l T1]. apply (SAME p k u s q l u' s' v E1 S1 E2 T1 S2 T2).
  - intros u l1 s l2 c v IU E I1 I2 I3. apply In_nth in IU. destruct IU as [p IU]. apply in_flat_map in I3. destruct I3 as (s' & T1 & T2). apply In_nth in T1. destruct T1 as [l T1].
    assert (K1 : nth_error (n_subs u) (length l1) = Some s) by (rewrite E, nth_error_app2, Nat.sub_diag by lia; reflexivity).
    assert (K2 : nth_error (n_subs u) (length l1 + S l) = Some s').
    { rewrite E, nth_error_app2 by lia. replace (length l1 + S l - length l1) with (S l) by lia. exact T1. }
    destruct (PL _ _ _ _ IU K1) as (g & i & cl & G1 & G2 & G3 & M). destruct (PL _ _ _ _ IU K2) as (g' & j & cl' & H1 & H2 & H3 & M').
    destruct (EDGE p _ u s p _ u s' c v g i cl g' j cl' IU K1 IU K2 I1 I2 T2 G1 G2 G3 M H1 H2 H3 M') as (_ & _ & B).
    rewrite G1 in H1. injection H1 as <-.
    assert (NE : i <> j).
    { intros ->. pose proof (NoDup_nth_eq g _ _ j (f_nodup _ _ _ F g (nth_error_In _ _ G1)) G2 H2). lia. }
    specialize (B NE eq_refl). lia.
  - intros p q u u' s s' c v E1 E2 S1 S2 I1 I2 I3. apply In_nth in S1, S2. destruct S1 as [k S1]. destruct S2 as [l S2].
    destruct (PL _ _ _ _ E1 S1) as (g & i & cl & G1 & G2 & G3 & M). destruct (PL _ _ _ _ E2 S2) as (g' & j & cl' & H1 & H2 & H3 & M').
    apply (EDGE p k u s q l u' s' c v g i cl g' j cl' E1 S1 E2 S2 I1 I2 I3 G1 G2 G3 M H1 H2 H3 M').
Qed.

Lemma finalize_units t mm t1 : inv sz cdef t -> finalize sz cdef mm t = Done t1 ->
  unitsOk (subs t) (units t1) /\ subs t1 = subs t /\ deps t1 = deps t /\
  (forall p u, nth_error (units t1) p = Some u -> u = newUnit sz cdef (n_subs u) (mm p)) /\
  vars t1 = flat_map (fun u => flat_map ss_xs (n_subs u)) (units t1) /\
  others t1 = uniq (flat_map (fun u => unitY sz cdef (n_subs u)) (units t1)) /\
  addVars t1 = addVars t ++ flat_map (fun pu => filter (fun z => 0 <? z_size z) (unitZ sz cdef (cur t1) (fst pu) (n_subs (snd pu)))) (indexed 0 (units t1)) /\
  cur t1 = S (gen t) /\ gen t1 = S (gen t).
Proof.
  intros I E. destruct (finalize_graph t I) as (cls & g & gs & R & G & F). unfold finalize in E. rewrite R in E. cbn [bind] in E. rewrite G in E. cbn [bind] in E.
  destruct (buildUnits sz cdef (subs t) cls mm gs []) as [[us b]| |] eqn:B; cbn [bind] in E; try discriminate. destruct b; [|discriminate].
  injection E as <-. cbn [units subs deps vars others addVars cur gen].
  destruct (buildUnits_ok _ _ _ _ _ _ B) as (new & -> & FX & M). rewrite app_nil_l in *. cbn [length Nat.add] in M.
  split; [|repeat split; auto].
  apply (units_ok (subs t) cls gs new (i_acc _ _ _ I) F). eapply Forall2_impl; [|exact FX]. cbv beta. intros gg u X. unfold unit_of. apply extract_merged; [apply (i_acc _ _ _ I)|exact X].
Qed.
End P.
