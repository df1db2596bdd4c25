Require Import List Arith Lia Bool Relations.
Require Import Verif.Base Verif.GraphModel Verif.GraphSpec Verif.ListLemmas.
Import ListNotations.

Definition par (d : ds) (i : nat) : nat := nth i (parent_ d) 0.
Definition rk (d : ds) (i : nat) : nat := nth i (rank_ d) 0.

Record dinv (n : nat) (d : ds) (rt : nat -> nat) : Prop := {
  di_lp : length (parent_ d) = n;
  di_lr : length (rank_ d) = n;
  di_par : forall i, i < n -> par d i < n;
  di_rt : forall i, i < n -> rt i < n;
  di_step : forall i, i < n -> rt (par d i) = rt i;
  di_fix : forall i, i < n -> par d (rt i) = rt i;
  di_self : forall i, i < n -> par d i = i -> rt i = i;
  di_rank : forall i, i < n -> par d i <> i -> rk d i < rk d (par d i) }.

Definition mu (n : nat) (d : ds) (x : nat) : nat := length (filter (fun y => Nat.ltb (rk d x) (rk d y)) (seq 0 n)).

Lemma filter_le {A} (p q : A -> bool) l : (forall x, p x = true -> q x = true) ->
  length (filter p l) <= length (filter q l).
Proof.
  intros H. induction l as [|x l IH]; simpl; [lia|].
  destruct (p x) eqn:E; [rewrite (H x E); simpl; lia|]. destruct (q x); simpl; lia.
Qed.
Lemma filter_lt {A} (p q : A -> bool) l : (forall x, p x = true -> q x = true) ->
  (exists x, In x l /\ p x = false /\ q x = true) -> length (filter p l) < length (filter q l).
Proof.
  intros H [y [Y [P Q]]]. induction l as [|x l IH]; [destruct Y|].
  simpl. destruct Y as [->|Y].
  - rewrite P, Q. simpl. pose proof (filter_le p q l H). lia.
  - specialize (IH Y). destruct (p x) eqn:E; [rewrite (H x E); simpl; lia|]. destruct (q x); simpl; lia.
Qed.
Lemma filter_len {A} (p : A -> bool) l : length (filter p l) <= length l.
Proof. induction l; simpl; [lia|]. destruct (p a); simpl; lia. Qed.

Lemma mu_step n d rt x : dinv n d rt -> x < n -> par d x <> x -> mu n d (par d x) < mu n d x.
Proof.
  intros D X N. pose proof (di_rank _ _ _ D x X N) as R. unfold mu. apply filter_lt.
  - intros y. rewrite !Nat.ltb_lt. lia.
  - exists (par d x). rewrite in_seq. split; [pose proof (di_par _ _ _ D x X); lia|].
    split; [apply Nat.ltb_irrefl|apply Nat.ltb_lt; exact R].
Qed.
Lemma mu_le n d x : mu n d x <= n.
Proof. unfold mu. pose proof (filter_len (fun y => Nat.ltb (rk d x) (rk d y)) (seq 0 n)). rewrite seq_length in H. exact H. Qed.

Lemma nthR_par n d rt x : dinv n d rt -> x < n -> nthR (parent_ d) x = Ok (par d x).
Proof. intros D X. apply nthR_ok. rewrite (di_lp _ _ _ D). exact X. Qed.

Lemma rootF_ok n d rt : dinv n d rt -> forall fuel x, x < n -> mu n d x <= fuel -> ds_rootF fuel d x = Ok (rt x).
Proof.
  intros D. induction fuel as [|f IH]; intros x X M; simpl; rewrite (nthR_par n d rt x D X); cbn [bind].
  - destruct (Nat.eqb x (par d x)) eqn:E.
    + apply Nat.eqb_eq in E. rewrite <- E. rewrite (di_self _ _ _ D x X (eq_sym E)). reflexivity.
    + apply Nat.eqb_neq in E. pose proof (mu_step n d rt x D X (fun e => E (eq_sym e))). lia.
  - destruct (Nat.eqb x (par d x)) eqn:E.
    + apply Nat.eqb_eq in E. rewrite <- E. rewrite (di_self _ _ _ D x X (eq_sym E)). reflexivity.
    + apply Nat.eqb_neq in E. pose proof (mu_step n d rt x D X (fun e => E (eq_sym e))).
      rewrite IH; [|apply (di_par _ _ _ D x X)|lia]. rewrite (di_step _ _ _ D x X). reflexivity.
Qed.
Lemma root_ok n d rt x : dinv n d rt -> x < n -> ds_root d x = Ok (rt x).
Proof.
  intros D X. unfold ds_root. apply (rootF_ok n d rt D); auto.
  rewrite (di_lp _ _ _ D). apply mu_le.
Qed.

Lemma rank_root n d rt : dinv n d rt -> forall k x, x < n -> mu n d x <= k ->
  rt x = x \/ rk d x < rk d (rt x).
Proof.
  intros D. induction k as [|k IH]; intros x X M; destruct (Nat.eq_dec (par d x) x) as [E|E].
  - left. apply (di_self _ _ _ D x X E).
  - pose proof (mu_step n d rt x D X E). lia.
  - left. apply (di_self _ _ _ D x X E).
  - right. pose proof (mu_step n d rt x D X E). pose proof (di_rank _ _ _ D x X E).
    destruct (IH (par d x) (di_par _ _ _ D x X)) as [F|F]; [lia| |]; rewrite (di_step _ _ _ D x X) in F.
    + rewrite F. exact H0.
    + lia.
Qed.

Lemma rt_idem n d rt x : dinv n d rt -> x < n -> rt (rt x) = rt x.
Proof. intros D X. apply (di_self _ _ _ D); [apply (di_rt _ _ _ D x X)|apply (di_fix _ _ _ D x X)]. Qed.

Lemma par_set d x r k i : x < length (parent_ d) ->
  par (mkDS (setN (parent_ d) x r) k) i = if Nat.eqb x i then r else par d i.
Proof. intros X. unfold par. simpl. apply nth_setN. exact X. Qed.

Lemma compress_inv n d rt x : dinv n d rt -> x < n -> dinv n (mkDS (setN (parent_ d) x (rt x)) (rank_ d)) rt.
Proof.
  intros D X. assert (P : forall i, par (mkDS (setN (parent_ d) x (rt x)) (rank_ d)) i = if Nat.eqb x i then rt x else par d i).
  { intros i. apply par_set. rewrite (di_lp _ _ _ D). exact X. }
  constructor; simpl.
  - rewrite setN_length. apply (di_lp _ _ _ D).
  - apply (di_lr _ _ _ D).
  - intros i I. rewrite P. destruct (Nat.eqb x i); [apply (di_rt _ _ _ D x X)|apply (di_par _ _ _ D i I)].
  - apply (di_rt _ _ _ D).
  - intros i I. rewrite P. destruct (Nat.eqb x i) eqn:E; [|apply (di_step _ _ _ D i I)].
    apply Nat.eqb_eq in E. subst. apply (rt_idem n d rt i D X).
  - intros i I. rewrite P. destruct (Nat.eqb x (rt i)) eqn:E; [|apply (di_fix _ _ _ D i I)].
    apply Nat.eqb_eq in E. rewrite E. apply (rt_idem n d rt i D I).
  - intros i I. rewrite P. destruct (Nat.eqb x i) eqn:E; [|apply (di_self _ _ _ D i I)].
    apply Nat.eqb_eq in E. subst. auto.
  - intros i I. rewrite P. unfold rk. simpl. fold (rk d i).
    destruct (Nat.eqb x i) eqn:E; [|intros N; exact (di_rank _ _ _ D i I N)].
    apply Nat.eqb_eq in E. subst. intros N. destruct (rank_root n d rt D _ i X (le_n _)) as [F|F]; [tauto|exact F].
Qed.

Lemma comprF_ok n d rt : dinv n d rt -> forall fuel x, x < n -> mu n d x <= fuel ->
  exists d', ds_comprF fuel d x = Ok (d', rt x) /\ dinv n d' rt /\ rank_ d' = rank_ d.
Proof.
  intros D. induction fuel as [|f IH]; intros x X M; simpl; rewrite (nthR_par n d rt x D X); cbn [bind];
  (destruct (Nat.eqb x (par d x)) eqn:E;
  [apply Nat.eqb_eq in E; rewrite <- E; exists d; rewrite (di_self _ _ _ D x X (eq_sym E)); auto|
   apply Nat.eqb_neq in E; pose proof (mu_step n d rt x D X (fun e => E (eq_sym e)))]).
  - lia.
  - destruct (IH (par d x)) as [d' [C [D' R]]]; [apply (di_par _ _ _ D x X)|lia|].
    rewrite C. cbn [bind]. rewrite (di_step _ _ _ D x X).
    exists (mkDS (setN (parent_ d') x (rt x)) (rank_ d')). split; [reflexivity|]. split; [|exact R].
    apply compress_inv; assumption.
Qed.
Lemma rootCompr_ok n d rt x : dinv n d rt -> x < n ->
  exists d', ds_rootCompr d x = Ok (d', rt x) /\ dinv n d' rt /\ rank_ d' = rank_ d.
Proof. intros D X. apply (comprF_ok n d rt D); auto. rewrite (di_lp _ _ _ D). apply mu_le. Qed.

(* joining the tree of root [b] under root [a] *)
Lemma join_inv n d rt a b k : dinv n d rt -> a < n -> b < n -> rt a = a -> rt b = b -> a <> b ->
  length k = n -> (forall i, i < n -> i <> a -> nth i k 0 = rk d i) -> rk d a <= nth a k 0 -> rk d b < nth a k 0 ->
  dinv n (mkDS (setN (parent_ d) b a) k) (fun i => if Nat.eqb (rt i) b then a else rt i).
Proof.
  intros D A B RA RB N LK K1 K2 K3.
  assert (P : forall i, par (mkDS (setN (parent_ d) b a) k) i = if Nat.eqb b i then a else par d i).
  { intros i. apply par_set. rewrite (di_lp _ _ _ D). exact B. }
  assert (FA : par d a = a) by (rewrite <- RA at 1; rewrite (di_fix _ _ _ D a A); exact RA).
  assert (FB : par d b = b) by (rewrite <- RB at 1; rewrite (di_fix _ _ _ D b B); exact RB).
  constructor; simpl.
  - rewrite setN_length. apply (di_lp _ _ _ D).
  - exact LK.
  - intros i I. rewrite P. destruct (Nat.eqb b i); [exact A|apply (di_par _ _ _ D i I)].
  - intros i I. destruct (Nat.eqb (rt i) b); [exact A|apply (di_rt _ _ _ D i I)].
  - intros i I. rewrite P. destruct (Nat.eqb b i) eqn:E.
    + apply Nat.eqb_eq in E. subst i. rewrite RB, Nat.eqb_refl, RA.
      destruct (Nat.eqb a b) eqn:F; [reflexivity|reflexivity].
    + rewrite (di_step _ _ _ D i I). reflexivity.
  - intros i I. rewrite P. destruct (Nat.eqb (rt i) b) eqn:E.
    + destruct (Nat.eqb b a) eqn:F; [reflexivity|exact FA].
    + apply Nat.eqb_neq in E. destruct (Nat.eqb b (rt i)) eqn:F; [apply Nat.eqb_eq in F; congruence|].
      apply (di_fix _ _ _ D i I).
  - intros i I. rewrite P. destruct (Nat.eqb b i) eqn:E.
    + apply Nat.eqb_eq in E. congruence.
    + intros S. rewrite (di_self _ _ _ D i I S). rewrite Nat.eqb_sym, E. reflexivity.
  - intros i I. rewrite P. unfold rk at 1 2. simpl. destruct (Nat.eqb b i) eqn:E.
    + apply Nat.eqb_eq in E. subst i. intros _. rewrite (K1 b B (fun e => N (eq_sym e))). exact K3.
    + intros S. pose proof (di_rank _ _ _ D i I S) as R.
      assert (I' : par d i < n) by apply (di_par _ _ _ D i I).
      assert (Nia : i <> a) by (intros ->; congruence).
      rewrite (K1 i I Nia). destruct (Nat.eq_dec (par d i) a) as [F|F].
      * rewrite F in *. lia.
      * rewrite (K1 _ I' F). exact R.
Qed.

Lemma unify_ok n d rt a b : dinv n d rt -> a < n -> b < n ->
  exists d' rt', ds_unify d a b = Ok d' /\ dinv n d' rt' /\
    forall i j, i < n -> j < n ->
      (rt' i = rt' j <-> rt i = rt j \/ (rt i = rt a /\ rt b = rt j) \/ (rt i = rt b /\ rt a = rt j)).
Proof.
  intros D A B. unfold ds_unify.
  destruct (rootCompr_ok n d rt a D A) as [d1 [C1 [D1 R1]]]. rewrite C1. cbn [bind].
  destruct (rootCompr_ok n d1 rt b D1 B) as [d2 [C2 [D2 R2]]]. rewrite C2. cbn [bind].
  destruct (Nat.eqb (rt a) (rt b)) eqn:E.
  - apply Nat.eqb_eq in E. exists d2, rt. split; [reflexivity|]. split; [exact D2|].
    intros i j I J. rewrite E. intuition congruence.
  - apply Nat.eqb_neq in E.
    assert (RA : rt a < n) by apply (di_rt _ _ _ D2 a A). assert (RB : rt b < n) by apply (di_rt _ _ _ D2 b B).
    assert (IA : rt (rt a) = rt a) by apply (rt_idem _ _ _ a D2 A).
    assert (IB : rt (rt b) = rt b) by apply (rt_idem _ _ _ b D2 B).
    rewrite (nthR_ok (rank_ d2) (rt a) 0) by (rewrite (di_lr _ _ _ D2); exact RA). cbn [bind].
    rewrite (nthR_ok (rank_ d2) (rt b) 0) by (rewrite (di_lr _ _ _ D2); exact RB). cbn [bind].
    fold (rk d2 (rt a)) (rk d2 (rt b)).
    assert (LR := di_lr _ _ _ D2).
    destruct (Nat.ltb (rk d2 (rt a)) (rk d2 (rt b))) eqn:LT; [|destruct (Nat.ltb (rk d2 (rt b)) (rk d2 (rt a))) eqn:GT].
    + apply Nat.ltb_lt in LT. eexists _, (fun i => if Nat.eqb (rt i) (rt a) then rt b else rt i).
      split; [reflexivity|]. split.
      { apply join_inv; auto. }
      intros i j I J. simpl. destruct (Nat.eqb (rt i) (rt a)) eqn:X; destruct (Nat.eqb (rt j) (rt a)) eqn:Y;
        rewrite ?Nat.eqb_eq, ?Nat.eqb_neq in *; intuition congruence.
    + apply Nat.ltb_lt in GT. eexists _, (fun i => if Nat.eqb (rt i) (rt b) then rt a else rt i).
      split; [reflexivity|]. split.
      { apply join_inv; auto. }
      intros i j I J. simpl. destruct (Nat.eqb (rt i) (rt b)) eqn:X; destruct (Nat.eqb (rt j) (rt b)) eqn:Y;
        rewrite ?Nat.eqb_eq, ?Nat.eqb_neq in *; intuition congruence.
    + apply Nat.ltb_ge in LT, GT. eexists _, (fun i => if Nat.eqb (rt i) (rt b) then rt a else rt i).
      split; [reflexivity|]. split.
      { apply join_inv; auto.
        - rewrite setN_length. exact LR.
        - intros i I N. rewrite setN_other by congruence. reflexivity.
        - rewrite setN_same by lia. lia.
        - rewrite setN_same by lia. lia. }
      intros i j I J. simpl. destruct (Nat.eqb (rt i) (rt b)) eqn:X; destruct (Nat.eqb (rt j) (rt b)) eqn:Y;
        rewrite ?Nat.eqb_eq, ?Nat.eqb_neq in *; intuition congruence.
Qed.

Lemma init_inv n : dinv n (ds_init n) (fun i => i).
Proof.
  assert (P : forall i, i < n -> par (ds_init n) i = i) by (intros i I; unfold par; simpl; rewrite seq_nth; auto).
  constructor; simpl; intros; try (rewrite ?P by auto); auto.
  - apply seq_length.
  - apply repeat_length.
  - exfalso. match goal with H : par _ _ <> _ |- _ => apply H; apply P; assumption end.
Qed.

(* the generated equivalence *)
Lemma linked_sub ps ps' i j : (forall p, In p ps -> In p ps') -> pairs_linked ps i j -> pairs_linked ps' i j.
Proof.
  intros S. unfold pairs_linked, linked. induction 1.
  - apply rst_step. apply S. assumption.
  - apply rst_refl.
  - apply rst_sym. assumption.
  - eapply rst_trans; eassumption.
Qed.
Lemma linked_snoc ps a b i j : pairs_linked (ps ++ [(a, b)]) i j <->
  pairs_linked ps i j \/ (pairs_linked ps i a /\ pairs_linked ps b j) \/ (pairs_linked ps i b /\ pairs_linked ps a j).
Proof.
  split.
  - unfold pairs_linked, linked. induction 1 as [x y H|x|x y H IH|x y z H1 IH1 H2 IH2].
    + apply in_app_or in H. destruct H as [H|[H|[]]].
      * left. apply rst_step. exact H.
      * injection H as -> ->. right. left. split; apply rst_refl.
    + left. apply rst_refl.
    + destruct IH as [H'|[[H1 H2]|[H1 H2]]].
      * left. apply rst_sym. exact H'.
      * right. right. split; apply rst_sym; assumption.
      * right. left. split; apply rst_sym; assumption.
    + assert (T : forall u v w, clos_refl_sym_trans nat (fun a b => In (a, b) ps) u v ->
        clos_refl_sym_trans nat (fun a b => In (a, b) ps) v w -> clos_refl_sym_trans nat (fun a b => In (a, b) ps) u w)
        by (intros; eapply rst_trans; eassumption).
      destruct IH1 as [P|[[P1 P2]|[P1 P2]]]; destruct IH2 as [Q|[[Q1 Q2]|[Q1 Q2]]]; eauto 8.
  - assert (S : forall u v, pairs_linked ps u v -> pairs_linked (ps ++ [(a, b)]) u v).
    { intros u v. apply linked_sub. intros p P. apply in_or_app. auto. }
    assert (AB : pairs_linked (ps ++ [(a, b)]) a b) by (apply rst_step; apply in_or_app; simpl; auto).
    intros [H|[[H1 H2]|[H1 H2]]].
    + apply S. exact H.
    + eapply rst_trans; [apply S; exact H1|]. eapply rst_trans; [exact AB|apply S; exact H2].
    + eapply rst_trans; [apply S; exact H1|]. eapply rst_trans; [apply rst_sym; exact AB|apply S; exact H2].
Qed.

Definition represents (n : nat) (d : ds) (ps : list (nat * nat)) : Prop :=
  exists rt, dinv n d rt /\ forall i j, i < n -> j < n -> (rt i = rt j <-> pairs_linked ps i j).

Lemma represents_init n : represents n (ds_init n) [].
Proof.
  exists (fun i => i). split; [apply init_inv|]. intros i j _ _. split.
  - intros ->. apply rst_refl.
  - unfold pairs_linked, linked. induction 1; simpl in *; try tauto; congruence.
Qed.
Lemma represents_unify n d ps a b : represents n d ps -> a < n -> b < n ->
  exists d', ds_unify d a b = Ok d' /\ represents n d' (ps ++ [(a, b)]).
Proof.
  intros [rt [D R]] A B. destruct (unify_ok n d rt a b D A B) as [d' [rt' [U [D' R']]]].
  exists d'. split; [exact U|]. exists rt'. split; [exact D'|].
  intros i j I J. rewrite (R' i j I J), linked_snoc.
  rewrite (R i j I J), (R i a I A), (R b j B J), (R i b I B), (R a j A J). tauto.
Qed.
Lemma represents_all n l : forall d ps, represents n d ps -> Forall (fun p => fst p < n /\ snd p < n) l ->
  exists d', ds_unify_all d l = Ok d' /\ represents n d' (ps ++ l).
Proof.
  induction l as [|[a b] l IH]; intros d ps R F; simpl.
  - exists d. rewrite app_nil_r. auto.
  - inversion F as [|? ? [A B] F']; subst. simpl in A, B.
    destruct (represents_unify n d ps a b R A B) as [d' [U R']]. rewrite U. cbn [bind].
    destruct (IH d' _ R' F') as [d'' [U' R'']]. exists d''. split; [exact U'|].
    rewrite <- app_assoc in R''. exact R''.
Qed.

Lemma c16_main n ps : Forall (fun p => fst p < n /\ snd p < n) ps ->
  exists d rt, ds_unify_all (ds_init n) ps = Ok d /\
    (forall i, i < n -> ds_root d i = Ok (rt i) /\ rt i < n /\ pairs_linked ps i (rt i) /\
                        ds_isRoot d i = Ok (Nat.eqb (rt i) i)) /\
    (forall i j, i < n -> j < n -> (rt i = rt j <-> pairs_linked ps i j)).
Proof.
  intros F. destruct (represents_all n ps _ _ (represents_init n) F) as [d [U [rt [D R]]]].
  exists d, rt. split; [exact U|]. simpl in R. split; [|exact R].
  intros i I. split; [apply (root_ok n d rt i D I)|]. pose proof (di_rt _ _ _ D i I) as RI. split; [exact RI|]. split.
  - apply (R i (rt i) I RI). symmetry. apply (rt_idem n d rt i D I).
  - unfold ds_isRoot. rewrite (nthR_par n d rt i D I). cbn [bind]. f_equal.
    destruct (Nat.eqb (par d i) i) eqn:E; symmetry.
    + apply Nat.eqb_eq in E. apply Nat.eqb_eq. apply (di_self _ _ _ D i I E).
    + apply Nat.eqb_neq in E. apply Nat.eqb_neq. intros F'. apply E. rewrite <- F' at 1.
      rewrite (di_fix _ _ _ D i I). exact F'.
Qed.
(* rootCompr, as called inside unify, changes no root *)
Lemma c16_compr n ps d : ds_unify_all (ds_init n) ps = Ok d -> Forall (fun p => fst p < n /\ snd p < n) ps ->
  forall i, i < n -> exists d' r, ds_rootCompr d i = Ok (d', r) /\ ds_root d i = Ok r /\
    forall j, j < n -> ds_root d' j = ds_root d j.
Proof.
  intros U F i I. destruct (represents_all n ps _ _ (represents_init n) F) as [d0 [U0 [rt [D R]]]].
  rewrite U0 in U. injection U as ->. destruct (rootCompr_ok n d rt i D I) as [d' [C [D' _]]].
  exists d', (rt i). split; [exact C|]. split; [apply (root_ok n d rt i D I)|].
  intros j J. rewrite (root_ok n d rt j D J), (root_ok n d' rt j D' J). reflexivity.
Qed.
