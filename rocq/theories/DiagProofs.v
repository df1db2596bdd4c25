(* Proofs for C32. *)
From Coq Require Import List Bool Arith ZArith QArith Lia Lqa Sorted.
Import ListNotations.
From Verif Require Import Base QSum DiagModel DiagSpec.
Local Open Scope nat_scope.

Lemma mem_In x l : mem x l = true <-> In x l.
Proof.
  unfold mem. rewrite existsb_exists. split.
  - intros (y & H & E). apply Nat.eqb_eq in E. now subst.
  - intros H. exists x. split; [exact H|apply Nat.eqb_refl].
Qed.
Lemma mem_not x l : mem x l = false <-> ~ In x l.
Proof. rewrite <- mem_In. destruct (mem x l); split; intros; congruence. Qed.

(* sorted lists *)
Lemma sorted_NoDup l : StronglySorted lt l -> NoDup l.
Proof.
  induction 1 as [|a l S IH F]; constructor; auto. intros H. rewrite Forall_forall in F. apply F in H. lia.
Qed.
Lemma sorted_unique l1 : forall l2, StronglySorted lt l1 -> StronglySorted lt l2 -> (forall x, In x l1 <-> In x l2) -> l1 = l2.
Proof.
  induction l1 as [|a l1 IH]; intros [|b l2] S1 S2 E; auto.
  - exfalso. apply (E b). simpl. auto.
  - exfalso. apply (E a). simpl. auto.
  - inversion S1 as [|? ? S1' F1]. inversion S2 as [|? ? S2' F2]. subst. rewrite Forall_forall in F1, F2.
    assert (a = b).
    { destruct (proj1 (E a) (or_introl eq_refl)) as [|H]; [auto|]. destruct (proj2 (E b) (or_introl eq_refl)) as [|K]; [auto|].
      apply F2 in H. apply F1 in K. lia. }
    subst b. f_equal. apply IH; auto. intros x. split; intros H.
    + destruct (proj1 (E x) (or_intror H)) as [<-|K]; [|exact K]. apply F1 in H. lia.
    + destruct (proj2 (E x) (or_intror H)) as [<-|K]; [|exact K]. apply F2 in H. lia.
Qed.
Lemma seq_sorted n : forall a, StronglySorted lt (seq a n).
Proof.
  induction n as [|n IH]; intros a; simpl; constructor; auto.
  apply Forall_forall. intros x H. apply in_seq in H. lia.
Qed.
Lemma filter_sorted f l : StronglySorted lt l -> StronglySorted lt (filter f l).
Proof.
  induction 1 as [|a l S IH F]; simpl; [constructor|]. destruct (f a); [|exact IH].
  constructor; [exact IH|]. rewrite Forall_forall in *. intros x H. apply filter_In in H. apply F. tauto.
Qed.
Lemma filter_mem l n : StronglySorted lt l -> (forall i, In i l -> i < n) -> filter (fun i => mem i l) (seq 0 n) = l.
Proof.
  intros S B. apply sorted_unique; auto; [apply filter_sorted, seq_sorted|].
  intros x. rewrite filter_In, in_seq, mem_In. split; [tauto|]. intros H. specialize (B x H). split; [lia|exact H].
Qed.

(* the position of an index among the selected ones *)
Section Rank.
Variable app : nat -> bool.
Definition rk (i : nat) : nat := length (filter app (seq 0 i)).
Lemma rk_S i : rk (S i) = if app i then S (rk i) else rk i.
Proof.
  unfold rk. rewrite seq_S, filter_app, app_length. simpl. destruct (app i); simpl; lia.
Qed.
Lemma rk_nth i n : i < n -> app i = true -> nth (rk i) (filter app (seq 0 n)) 0 = i.
Proof.
  intros L A. replace n with (i + (n - i)) by lia. rewrite seq_app, filter_app. unfold rk. rewrite app_nth2 by lia.
  rewrite Nat.sub_diag. simpl. destruct (n - i) eqn:E; [lia|]. simpl. rewrite A. reflexivity.
Qed.
Lemma rk_lt i n : i < n -> app i = true -> rk i < rk n.
Proof.
  intros L A. induction n as [|n IH]; [lia|]. rewrite rk_S. destruct (Nat.eq_dec i n) as [->|D].
  - rewrite A. lia.
  - specialize (IH ltac:(lia)). destruct (app n); lia.
Qed.
Lemma rk_le i : rk i <= i.
Proof. induction i as [|i IH]; [unfold rk; simpl; lia|]. rewrite rk_S. destruct (app i); lia. Qed.
Lemma rk_id i : rk i = i <-> forall j, j < i -> app j = true.
Proof.
  induction i as [|i IH].
  - split; [lia|reflexivity].
  - rewrite rk_S. pose proof (rk_le i). destruct (app i) eqn:E.
    + split.
      * intros H1 j L. destruct (Nat.eq_dec j i) as [->|D]; [exact E|]. apply IH; lia.
      * intros H1. f_equal. apply IH. intros j L. apply H1. lia.
    + split; [lia|]. intros H1. rewrite H1 in E by lia. discriminate.
Qed.
End Rank.

(* selection matrices: column b is the unit vector of index nth b l *)
Definition sel (l : list nat) : mat := fun a b => if a =? nth b l 0 then 1%Q else 0%Q.
Lemma sel_in l z b : NoDup l -> b < length l -> (mulv (length l) (sel l) z (nth b l 0%nat) == z b)%Q.
Proof.
  intros N L. unfold mulv. rewrite <- (qsumn_delta z _ b L). apply qsumn_ext. intros k K. unfold sel.
  destruct (Nat.eqb_spec (nth b l 0) (nth k l 0)) as [E|E]; destruct (Nat.eqb_spec k b) as [E1|E1]; try subst; try ring; exfalso.
  - apply E1. symmetry. exact (proj1 (NoDup_nth l 0) N b k L K E).
  - apply E. reflexivity.
Qed.
Lemma sel_out l z a : ~ In a l -> (mulv (length l) (sel l) z a == 0)%Q.
Proof.
  intros N. apply qsumn_zero. intros k K. unfold sel. destruct (Nat.eqb_spec a (nth k l 0)) as [E|E]; [|ring].
  exfalso. apply N. rewrite E. apply nth_In. exact K.
Qed.
Lemma sel_mul l n (M : mat) i b : b < length l -> (forall x, In x l -> x < n) -> (mul n M (sel l) i b == M i (nth b l 0%nat))%Q.
Proof.
  intros L B. unfold mul. rewrite <- (qsumn_delta (M i) n (nth b l 0)) by (apply B, nth_In, L).
  apply qsumn_ext. intros k K. unfold sel. destruct (Nat.eqb k (nth b l 0)); ring.
Qed.
(* a selection is a basis of the null space when the null vectors are those vanishing elsewhere *)
Lemma sel_basis m n l (A : mat) : NoDup l -> (forall x, In x l -> x < n) ->
  (forall i x, i < m -> In x l -> (A i x == 0)%Q) ->
  (forall v, eqv m (mulv n A v) (fun _ => 0%Q) -> forall x, x < n -> ~ In x l -> (v x == 0)%Q) ->
  nullBasis m n (length l) A (sel l).
Proof.
  intros N B Z V. split.
  - intros i b Li Lb. rewrite sel_mul by auto. apply Z; [exact Li|apply nth_In, Lb].
  - intros v E. exists (fun b => v (nth b l 0)). split.
    + intros a La. destruct (in_dec Nat.eq_dec a l) as [I|I].
      * destruct (In_nth l a 0 I) as (b & Lb & <-). symmetry. apply (sel_in l (fun b => v (nth b l 0)) b N Lb).
      * rewrite (sel_out l _ a I). apply V; auto.
    + intros z' E' b Lb. rewrite (E' (nth b l 0)) by (apply B, nth_In, Lb). apply sel_in; auto.
Qed.

(* the loops *)
Lemma fillN_spec l : forall i n c N, (forall x, In x l -> x < n) -> i + length l <= c ->
  exists N', fillN l i n c N = Ok N' /\
    forall a b, N' a b = if (i <=? b) && (b <? i + length l) then (if a =? nth (b - i) l 0 then 1%Q else N a b) else N a b.
Proof.
  induction l as [|x l IH]; intros i n c N B L; simpl.
  - exists N. split; [reflexivity|]. intros a b. destruct (Nat.leb_spec i b); destruct (Nat.ltb_spec b (i + 0)); simpl; auto; lia.
  - rewrite (proj2 (Nat.ltb_lt x n)) by (apply B; simpl; auto). simpl in L. rewrite (proj2 (Nat.ltb_lt i c)) by lia. cbn [andb].
    destruct (IH (S i) n c (setElt N x i 1%Q)) as (N' & E & H); [intros y Hy; apply B; simpl; auto|simpl in L; lia|].
    exists N'. split; [exact E|]. intros a b. rewrite H. unfold setElt.
    destruct (Nat.leb_spec (S i) b); destruct (Nat.ltb_spec b (S i + length l)); destruct (Nat.leb_spec i b);
      destruct (Nat.ltb_spec b (i + S (length l))); cbn [andb]; try lia.
    + replace (b - i) with (S (b - S i)) by lia. cbn [nth]. destruct (a =? nth (b - S i) l 0); [reflexivity|].
      destruct (Nat.eqb_spec b i); [lia|]. rewrite andb_false_r. reflexivity.
    + destruct (Nat.eqb_spec b i); [lia|]. rewrite andb_false_r. reflexivity.
    + assert (b = i) by lia. subst b. rewrite Nat.sub_diag, Nat.eqb_refl, andb_true_r. reflexivity.
    + destruct (Nat.eqb_spec b i); [lia|]. rewrite andb_false_r. reflexivity.
Qed.

Lemma innzLoop_spec nnz zeros l : forall a k, k = rk (fun i => mem i nnz || mem i zeros) a ->
  innzLoop nnz zeros (seq a l) k = map (rk (fun i => mem i nnz || mem i zeros)) (filter (fun i => mem i nnz) (seq a l)).
Proof.
  induction l as [|l IH]; intros a k E; simpl; [reflexivity|].
  destruct (mem a nnz) eqn:M; simpl.
  - rewrite (IH (S a)); [now rewrite <- E|]. rewrite rk_S, M. simpl. now rewrite E.
  - destruct (mem a zeros) eqn:Z; apply IH; rewrite rk_S, M, Z; simpl; auto.
Qed.

Lemma invLoop_spec (A : mat) m n (f : nat -> nat) l : (forall j, In j l -> f j < m /\ j < n /\ ~ (A (f j) j == 0)%Q) ->
  invLoop A m n (map f l) l = Ok (map (fun j => 1 / A (f j) j)%Q l).
Proof.
  induction l as [|j l IH]; intros H; simpl; [reflexivity|].
  destruct (H j (or_introl eq_refl)) as (H1 & H2 & H3).
  rewrite (proj2 (Nat.ltb_lt _ _) H1), (proj2 (Nat.ltb_lt _ _) H2). cbn [andb].
  destruct (Qeq_bool (A (f j) j) 0) eqn:E; [apply Qeq_bool_iff in E; contradiction|]. simpl.
  rewrite IH by (intros; apply H; simpl; auto). reflexivity.
Qed.

Lemma mulA_spec minus m n (f : nat -> nat) (g : nat -> Q) l inM : forall out, NoDup l -> (forall j, In j l -> f j < m /\ j < n) ->
  exists o, mulA minus m n (map g l) (map f l) l inM out = Ok o /\
    forall j p, o j p = if mem j l then (if minus then - g j * inM (f j) p else g j * inM (f j) p)%Q else out j p.
Proof.
  induction l as [|x l IH]; intros out N B; simpl; [eauto|].
  destruct (B x (or_introl eq_refl)) as [H1 H2].
  rewrite (proj2 (Nat.ltb_lt _ _) H1), (proj2 (Nat.ltb_lt _ _) H2). cbn [andb].
  inversion N as [|? ? NI N']. subst.
  destruct (IH (setRow out x (fun p => if minus then (- g x * inM (f x) p)%Q else (g x * inM (f x) p)%Q)) N') as (o & E & H);
    [intros; apply B; simpl; auto|].
  exists o. split; [exact E|]. intros j p. rewrite H. unfold setRow.
  destruct (mem j l) eqn:M; [now rewrite orb_true_r|]. rewrite orb_false_r.
  destruct (Nat.eqb_spec j x) as [->|D]; reflexivity.
Qed.
Lemma zeroRows_spec n l : forall out, (forall j, In j l -> j < n) ->
  exists o, zeroRows n l out = Ok o /\ forall j p, o j p = if mem j l then 0%Q else out j p.
Proof.
  induction l as [|x l IH]; intros out B; simpl; [eauto|].
  rewrite (proj2 (Nat.ltb_lt x n)) by (apply B; simpl; auto).
  destruct (IH (setRow out x (fun _ => 0%Q))) as (o & E & H); [intros; apply B; simpl; auto|].
  exists o. split; [exact E|]. intros j p. rewrite H. unfold setRow. destruct (mem j l) eqn:M; [now rewrite orb_true_r|].
  rewrite orb_false_r. reflexivity.
Qed.
Lemma mulS_spec m ms l inM : forall i out o, mulS m ms l i inM out = Ok o ->
  (forall z, In z l -> z < m) /\
  forall a p, o a p = if (i <=? a) && (a <? i + length l) then inM (nth (a - i) l 0) p else out a p.
Proof.
  induction l as [|x l IH]; intros i out o E; simpl in E.
  - injection E as <-. split; [intros z []|]. intros a p. simpl. destruct (Nat.leb_spec i a); destruct (Nat.ltb_spec a (i + 0)); simpl; auto; lia.
  - destruct ((i <? ms) && (x <? m)) eqn:C; [|discriminate]. apply andb_true_iff in C. destruct C as [C1 C2].
    apply IH in E. destruct E as [B H]. split; [intros z [<-|I]; [now apply Nat.ltb_lt|auto]|].
    intros a p. rewrite H. unfold setRow. simpl length.
    destruct (Nat.leb_spec (S i) a); destruct (Nat.ltb_spec a (S i + length l)); destruct (Nat.leb_spec i a);
      destruct (Nat.ltb_spec a (i + S (length l))); cbn [andb]; try lia.
    + replace (a - i) with (S (a - S i)) by lia. reflexivity.
    + destruct (Nat.eqb_spec a i); [lia|reflexivity].
    + assert (a = i) by lia. subst a. rewrite Nat.sub_diag, Nat.eqb_refl. reflexivity.
    + destruct (Nat.eqb_spec a i); [lia|reflexivity].
Qed.
Lemma mulS_ok m ms l inM : forall i out, i + length l <= ms -> (forall z, In z l -> z < m) -> exists o, mulS m ms l i inM out = Ok o.
Proof.
  induction l as [|x l IH]; intros i out L B; simpl; [eauto|]. simpl in L.
  rewrite (proj2 (Nat.ltb_lt i ms)) by lia. rewrite (proj2 (Nat.ltb_lt x m)) by (apply B; simpl; auto). simpl.
  apply IH; [lia|]. intros; apply B; simpl; auto.
Qed.
Lemma mulN_spec add n c l inM : forall i out, i + length l <= c -> (forall x, In x l -> x < n) ->
  exists o, mulN add n c l i out inM = Ok o /\
    forall a b, o a b = if (i <=? b) && (b <? i + length l) then (if add then out a b + inM a (nth (b - i) l 0%nat) else inM a (nth (b - i) l 0%nat))%Q else out a b.
Proof.
  induction l as [|x l IH]; intros i out L B; simpl.
  - exists out. split; [reflexivity|]. intros a b. destruct (Nat.leb_spec i b); destruct (Nat.ltb_spec b (i + 0)); simpl; auto; lia.
  - simpl in L. rewrite (proj2 (Nat.ltb_lt i c)) by lia. rewrite (proj2 (Nat.ltb_lt x n)) by (apply B; simpl; auto). cbn [andb].
    destruct (IH (S i) (setCol out i (fun a => if add then (out a i + inM a x)%Q else inM a x))) as (o & E & H); [lia|intros; apply B; simpl; auto|].
    exists o. split; [exact E|]. intros a b. rewrite H. unfold setCol.
    destruct (Nat.leb_spec (S i) b); destruct (Nat.ltb_spec b (S i + length l)); destruct (Nat.leb_spec i b);
      destruct (Nat.ltb_spec b (i + S (length l))); cbn [andb]; try lia.
    + replace (b - i) with (S (b - S i)) by lia. cbn [nth]. destruct (Nat.eqb_spec b i); [lia|reflexivity].
    + destruct (Nat.eqb_spec b i); [lia|reflexivity].
    + assert (b = i) by lia. subst b. rewrite Nat.sub_diag, Nat.eqb_refl. reflexivity.
    + destruct (Nat.eqb_spec b i); [lia|reflexivity].
Qed.

Lemma fillN_bound l : forall i n c N N', fillN l i n c N = Ok N' -> forall x, In x l -> x < n.
Proof.
  induction l as [|y l IH]; intros i n c N N' E x I; [destruct I|]. simpl in E.
  destruct (Nat.ltb_spec y n); [|discriminate]. destruct (i <? c); [|discriminate]. destruct I as [<-|I]; [assumption|exact (IH _ _ _ _ _ E x I)].
Qed.

(* what the constructors establish *)
Record wf (m n r : nat) (nnz zeros : nat -> Prop) (d : impl) : Prop := {
  wf_m : i_m d = m; wf_n : i_n d = n; wf_r : i_r d = r;
  wf_nnz : forall i, In i (i_nnz d) <-> nnz i; wf_zeros : forall i, In i (i_zeros d) <-> zeros i;
  wf_snnz : StronglySorted lt (i_nnz d); wf_szeros : StronglySorted lt (i_zeros d);
  wf_bnnz : forall i, In i (i_nnz d) -> i < n; wf_bzeros : forall i, In i (i_zeros d) -> i < n;
  wf_len : length (i_nnz d) = r;
  wf_cnnz : i_cnnz d = filter (fun i => negb (mem i (i_nnz d))) (seq 0 n);
  wf_innz : i_innz d = map (rk (fun i => mem i (i_nnz d) || mem i (i_zeros d))) (i_nnz d);
  wf_N : forall a b, b < n - r -> i_N d a b = sel (i_cnnz d) a b }.

Lemma length_filter_compl (f : nat -> bool) l : length (filter (fun i => negb (f i)) l) + length (filter f l) = length l.
Proof. induction l as [|a l IH]; simpl; [reflexivity|]. destruct (f a); simpl; lia. Qed.
Lemma length_cnnz nnz n : StronglySorted lt nnz -> (forall i, In i nnz -> i < n) ->
  length (filter (fun i => negb (mem i nnz)) (seq 0 n)) + length nnz = n.
Proof.
  intros S B. pose proof (length_filter_compl (fun i => mem i nnz) (seq 0 n)) as H.
  rewrite (filter_mem nnz n S B), seq_length in H. exact H.
Qed.

Lemma build_wf m n r nnz zeros d : StronglySorted lt nnz -> StronglySorted lt zeros -> length nnz = r ->
  (forall i, In i nnz -> i < n) ->
  build m n r nnz (filter (fun i => negb (mem i nnz)) (seq 0 n)) zeros = Ok d ->
  wf m n r (fun i => In i nnz) (fun i => In i zeros) d.
Proof.
  intros S1 S2 L B E. unfold build in E.
  pose proof (length_cnnz nnz n S1 B) as LC.
  destruct (fillN_spec (filter (fun i => negb (mem i nnz)) (seq 0 n)) 0 n (n - r) (fun _ _ => 0%Q)) as (N & EN & HN).
  { intros x H. apply filter_In in H. destruct H as [H _]. apply in_seq in H. lia. }
  { lia. }
  rewrite EN in E. cbn [bind] in E.
  destruct (forallb (fun i => i <? n) nnz && forallb (fun i => i <? n) zeros) eqn:C; [|discriminate].
  injection E as <-. apply andb_true_iff in C. destruct C as [_ C]. rewrite forallb_forall in C.
  constructor; simpl; auto; try tauto.
  - intros i I. apply Nat.ltb_lt. auto.
  - rewrite innzLoop_spec by reflexivity. rewrite filter_mem; auto.
  - intros a b Lb. rewrite HN. unfold sel. rewrite Nat.sub_0_r, Nat.add_0_l.
    rewrite (proj2 (Nat.ltb_lt _ _)) by lia. simpl. reflexivity.
Qed.

Lemma filter_true {A} (f : A -> bool) l : (forall x, In x l -> f x = true) -> filter f l = l.
Proof. induction l as [|a l IH]; intros H; simpl; [reflexivity|]. rewrite (H a) by (simpl; auto). f_equal. apply IH. intros; apply H; simpl; auto. Qed.
Lemma filter_false {A} (f : A -> bool) l : (forall x, In x l -> f x = false) -> filter f l = [].
Proof. induction l as [|a l IH]; intros H; simpl; [reflexivity|]. rewrite (H a) by (simpl; auto). apply IH. intros; apply H; simpl; auto. Qed.

Lemma contiguous_compl f s n : f + s <= n ->
  seq 0 f ++ seq (f + s) (n - (f + s)) = filter (fun i => negb (mem i (seq f s))) (seq 0 n).
Proof.
  intros L. replace n with (f + (s + (n - (f + s)))) at 2 by lia. rewrite !seq_app, !filter_app. simpl.
  rewrite (filter_false _ (seq f s)), (filter_true _ (seq 0 f)), (filter_true _ (seq (f + s) _)).
  - reflexivity.
  - intros x H. apply in_seq in H. apply negb_true_iff, mem_not. rewrite in_seq. lia.
  - intros x H. apply in_seq in H. apply negb_true_iff, mem_not. rewrite in_seq. lia.
  - intros x H. apply negb_false_iff, mem_In. exact H.
Qed.
Lemma gaps_compl n nnz : forall from, StronglySorted lt nnz -> (forall i, In i nnz -> from <= i < n) -> from <= n ->
  gaps from nnz n = filter (fun i => negb (mem i nnz)) (seq from (n - from)).
Proof.
  induction nnz as [|x l IH]; intros from SS B L; simpl.
  - symmetry. apply filter_true. reflexivity.
  - inversion SS as [|? ? S' F]. subst. rewrite Forall_forall in F.
    pose proof (B x (or_introl eq_refl)) as Bx.
    replace (n - from) with ((x - from) + (1 + (n - S x))) by lia. rewrite !seq_app, !filter_app.
    replace (from + (x - from)) with x by lia. rewrite (filter_true _ (seq from (x - from))).
    + f_equal. simpl seq at 1. cbn [filter]. rewrite Nat.eqb_refl. simpl.
      rewrite (IH (S x)); [|exact S'| |lia].
      * replace (x + 1) with (S x) by lia. apply filter_ext_in. intros a H. apply in_seq in H.
        destruct (Nat.eqb_spec a x); [lia|reflexivity].
      * intros i I. pose proof (B i (or_intror I)). specialize (F i I). lia.
    + intros y H. apply in_seq in H. destruct (Nat.eqb_spec y x); [lia|]. simpl. apply negb_true_iff, mem_not.
      intros I. specialize (F y I). lia.
Qed.

(* sorting *)
Lemma insert_In x l y : In y (insert x l) <-> y = x \/ In y l.
Proof.
  induction l as [|z l IH]; simpl; [intuition|]. destruct (x <=? z)%Z; simpl; [intuition|]. rewrite IH. intuition.
Qed.
Lemma sort_In l y : In y (sort l) <-> In y l.
Proof. induction l as [|x l IH]; simpl; [tauto|]. rewrite insert_In, IH. intuition. Qed.
Lemma insert_sorted x l : StronglySorted Z.le l -> StronglySorted Z.le (insert x l).
Proof.
  induction 1 as [|a l S IH F]; simpl; [repeat constructor|]. destruct (Z.leb_spec x a).
  - constructor; [constructor; auto|]. constructor; [auto|]. rewrite Forall_forall in *. intros y H1. specialize (F y H1). lia.
  - constructor; [exact IH|]. rewrite Forall_forall in *. intros y H1. apply insert_In in H1. destruct H1 as [->|H1]; [lia|auto].
Qed.
Lemma sort_sorted l : StronglySorted Z.le (sort l).
Proof. induction l as [|x l IH]; simpl; [constructor|]. now apply insert_sorted. Qed.
Lemma checkIndices_spec l : forall ap r, checkIndices l ap = Ok r ->
  (forall i, In i l -> (0 <= i)%Z /\ ~ In i ap) /\ NoDup l /\ (forall i, In i r <-> In i l \/ In i ap).
Proof.
  induction l as [|i l IH]; intros ap r E; simpl in E.
  - injection E as <-. split; [intros i []|]. split; [constructor|]. simpl. tauto.
  - destruct (Z.ltb_spec i 0); [discriminate|]. destruct (existsb (Z.eqb i) ap) eqn:X; [discriminate|].
    assert (NI : ~ In i ap).
    { intros I. assert (existsb (Z.eqb i) ap = true); [|congruence]. apply existsb_exists. exists i. split; [exact I|apply Z.eqb_refl]. }
    apply IH in E. destruct E as (H1 & H2 & H3). split; [|split].
    + intros j [<-|J]; [auto|]. destruct (H1 j J) as [A B]. split; [exact A|]. intros C. apply B. simpl. auto.
    + constructor; [|exact H2]. intros J. destruct (H1 i J) as [_ B]. apply B. simpl. auto.
    + intros j. rewrite H3. simpl. tauto.
Qed.
Lemma sorted_map_nat l : StronglySorted Z.le l -> NoDup l -> (forall i, In i l -> (0 <= i)%Z) -> StronglySorted lt (map Z.to_nat l).
Proof.
  induction 1 as [|a l S IH F]; intros N P; simpl; [constructor|]. inversion N as [|? ? NI N']. subst.
  constructor; [apply IH; auto; intros; apply P; simpl; auto|]. rewrite Forall_forall in *. intros x H.
  apply in_map_iff in H. destruct H as (y & <- & H). pose proof (F y H). pose proof (P a (or_introl eq_refl)).
  assert (a <> y) by (intros ->; contradiction). lia.
Qed.
Lemma in_map_nat l i : (forall i, In i l -> (0 <= i)%Z) -> In i (map Z.to_nat l) <-> In (Z.of_nat i) l.
Proof.
  intros P. rewrite in_map_iff. split.
  - intros (y & <- & H). rewrite Z2Nat.id by auto. exact H.
  - intros H. exists (Z.of_nat i). split; [apply Nat2Z.id|exact H].
Qed.

Lemma wf_ext m n r P Q P' Q' d : (forall i, P i <-> P' i) -> (forall i, Q i <-> Q' i) -> wf m n r P Q d -> wf m n r P' Q' d.
Proof. intros E1 E2 [? ? ? W1 W2 ? ? ? ? ? ? ? ?]. constructor; auto; intros i; [rewrite W1; apply E1|rewrite W2; apply E2]. Qed.

Lemma last_max l d : StronglySorted Z.le l -> forall i, In i l -> (i <= last l d)%Z.
Proof.
  induction 1 as [|a l S IH F]; intros i I; [destruct I|]. destruct l as [|b l]; [simpl in *; destruct I; [lia|tauto]|].
  change (last (a :: b :: l) d) with (last (b :: l) d). destruct I as [<-|I]; [|auto].
  rewrite Forall_forall in F. specialize (F b (or_introl eq_refl)). specialize (IH b (or_introl eq_refl)). lia.
Qed.

Lemma made_wf m n r nnz zeros d : made m n r nnz zeros d -> wf m n r nnz zeros d /\ m <= n /\ r <= m.
Proof.
  intros [(first & size & c & E1 & E2 & H1 & H2)|(ln & lz & c & E1 & E2 & H1 & H2)].
  - unfold newContiguous in E1. destruct (Z.ltb_spec first 0); [discriminate|]. destruct (Z.ltb_spec size (-1)); [discriminate|].
    injection E1 as <-. unfold newImpl in E2. simpl in E2. rewrite (proj2 (Z.leb_le 0 first)) in E2 by lia.
    unfold implContiguous in E2. destruct (Nat.leb_spec m n) as [L1|]; [|discriminate]. destruct (Nat.leb_spec r m) as [L2|]; [|discriminate]. simpl in E2.
    destruct (Z.eqb_spec (if (size =? -1)%Z then (Z.of_nat n - first)%Z else size) (Z.of_nat r)) as [R|]; [|discriminate]. simpl in E2.
    split; [|auto].
    set (f := Z.to_nat first) in *. set (s := Z.to_nat _) in E2.
    assert (Es : s = r) by (unfold s; rewrite R; apply Nat2Z.id). rewrite Es in E2.
    assert (B : f + r <= n).
    { destruct (le_lt_dec (f + r) n) as [|G]; [auto|]. exfalso. unfold build in E2.
      destruct (fillN (seq 0 f ++ seq (f + r) (n - (f + r))) 0 n (n - r) (fun _ _ => 0%Q)) eqn:FN; try discriminate. cbn [bind] in E2.
      destruct (forallb (fun i => i <? n) (seq f r)) eqn:FB; [|discriminate]. rewrite forallb_forall in FB.
      destruct r as [|r'].
      - assert (n < n); [|lia]. apply (fillN_bound _ _ _ _ _ _ FN). apply in_or_app. left. apply in_seq. lia.
      - specialize (FB (f + r')). rewrite in_seq in FB. specialize (FB ltac:(lia)). apply Nat.ltb_lt in FB. lia. }
    rewrite contiguous_compl in E2 by exact B.
    assert (W : wf m n r (fun i => In i (seq f r)) (fun i => In i []) d).
    { apply build_wf; auto; [apply seq_sorted|constructor|apply seq_length|]. intros i I. apply in_seq in I. lia. }
    revert W. apply wf_ext.
    + intros i. rewrite H1, in_seq. destruct (Z.eqb_spec size (-1)); lia.
    + intros i. specialize (H2 i). simpl. tauto.
  - unfold newRows in E1. destruct ln as [|x0 ln0] eqn:EL; [discriminate|]. rewrite <- EL in *. clear EL.
    destruct (checkIndices (sort ln) []) as [ap| |] eqn:C1; try discriminate. cbn [bind] in E1.
    destruct (checkIndices (sort lz) ap) as [ap2| |] eqn:C2; try discriminate. cbn [bind] in E1. injection E1 as <-.
    apply checkIndices_spec in C1. destruct C1 as (P1 & N1 & A1). apply checkIndices_spec in C2. destruct C2 as (P2 & N2 & _).
    unfold newImpl in E2. simpl in E2. unfold implRows in E2.
    destruct (Nat.leb_spec m n) as [L1|]; [|discriminate]. destruct (Nat.leb_spec r m) as [L2|]; [|discriminate]. cbn [andb negb] in E2.
    destruct (Z.leb_spec (Z.of_nat n) (Z.max (last (sort ln) 0%Z) (last (sort lz) (last (sort ln) 0%Z)))) as [|LM]; [discriminate|].
    destruct (Nat.eqb_spec (length (sort ln)) r) as [LR|]; [|discriminate]. cbn [negb] in E2. split; [|auto].
    assert (Q1 : forall i, In i (sort ln) -> (0 <= i)%Z) by (intros i I; apply P1; exact I).
    assert (Q2 : forall i, In i (sort lz) -> (0 <= i)%Z) by (intros i I; apply P2; exact I).
    assert (S1 := sorted_map_nat _ (sort_sorted ln) N1 Q1).
    assert (S2 := sorted_map_nat _ (sort_sorted lz) N2 Q2).
    assert (B1 : forall i, In i (map Z.to_nat (sort ln)) -> i < n).
    { intros i I. apply (in_map_nat _ _ Q1) in I. pose proof (last_max _ 0%Z (sort_sorted ln) _ I). lia. }
    rewrite gaps_compl in E2; [|exact S1|intros i I; specialize (B1 i I); lia|lia]. rewrite Nat.sub_0_r in E2.
    apply build_wf in E2; auto; [|now rewrite map_length].
    revert E2. apply wf_ext.
    + intros i. rewrite (in_map_nat _ _ Q1), sort_In. symmetry. apply H1.
    + intros i. rewrite (in_map_nat _ _ Q2), sort_In. symmetry. apply H2.
Qed.

Lemma NoDup_app_ {A} (l1 l2 : list A) : NoDup l1 -> NoDup l2 -> (forall x, In x l1 -> ~ In x l2) -> NoDup (l1 ++ l2).
Proof.
  induction 1 as [|a l N D IH]; intros D2 H; simpl; [exact D2|]. constructor.
  - intros I. apply in_app_or in I. destruct I as [I|I]; [contradiction|]. exact (H a (or_introl eq_refl) I).
  - apply IH; [exact D2|]. intros x I. apply H. simpl. auto.
Qed.

Section Main.
Variables (m n r : nat) (nnz zeros : nat -> Prop) (d : impl) (rows : list nat) (A : mat).
Hypothesis W : wf m n r nnz zeros d.
Hypothesis St : structured m n nnz zeros rows A.
Let ap i := mem i (i_nnz d) || mem i (i_zeros d).
Let rho := rk ap.

Lemma ap_spec i : ap i = true <-> nnz i \/ zeros i.
Proof. unfold ap. rewrite orb_true_iff, !mem_In, (wf_nnz _ _ _ _ _ _ W), (wf_zeros _ _ _ _ _ _ W). tauto. Qed.
Lemma rows_eq : rows = filter ap (seq 0 n).
Proof.
  destruct St as (S1 & _ & I & _). apply sorted_unique; auto; [apply filter_sorted, seq_sorted|].
  intros x. rewrite filter_In, in_seq, I, ap_spec. split; [|tauto]. intros H. split; [|exact H].
  destruct H as [H|H]; [apply (wf_nnz _ _ _ _ _ _ W) in H; apply (wf_bnnz _ _ _ _ _ _ W) in H|apply (wf_zeros _ _ _ _ _ _ W) in H; apply (wf_bzeros _ _ _ _ _ _ W) in H]; lia.
Qed.
Lemma m_eq : m = rho n.
Proof. destruct St as (_ & L & _). rewrite <- L, rows_eq. reflexivity. Qed.
Lemma nnz_lt i : nnz i -> i < n.
Proof. intros H. apply (wf_nnz _ _ _ _ _ _ W) in H. apply (wf_bnnz _ _ _ _ _ _ W) in H. exact H. Qed.
Lemma zeros_lt i : zeros i -> i < n.
Proof. intros H. apply (wf_zeros _ _ _ _ _ _ W) in H. apply (wf_bzeros _ _ _ _ _ _ W) in H. exact H. Qed.
Lemma rho_lt i : nnz i \/ zeros i -> rho i < m.
Proof. intros H. rewrite m_eq. apply rk_lt; [destruct H; auto using nnz_lt, zeros_lt|now apply ap_spec]. Qed.
Lemma rho_nth i : nnz i \/ zeros i -> nth (rho i) rows 0 = i.
Proof. intros H. rewrite rows_eq. apply rk_nth; [destruct H; auto using nnz_lt, zeros_lt|now apply ap_spec]. Qed.
Lemma nth_rho a : a < m -> (nnz (nth a rows 0) \/ zeros (nth a rows 0)) /\ rho (nth a rows 0) = a.
Proof.
  intros L. destruct St as (S1 & Lm & I & _). rewrite <- Lm in L.
  assert (H : nnz (nth a rows 0) \/ zeros (nth a rows 0)) by (apply I, nth_In, L). split; [exact H|].
  apply (proj1 (NoDup_nth rows 0) (sorted_NoDup _ S1)); [rewrite Lm; now apply rho_lt|exact L|now apply rho_nth].
Qed.
Lemma A_diag j : nnz j -> ~ (A (rho j) j == 0)%Q.
Proof.
  intros H. destruct St as (_ & _ & _ & _ & X). apply X; [apply rho_lt; auto|now apply nnz_lt|]. split; [apply rho_nth; auto|exact H].
Qed.
Lemma A_zero i j : i < m -> j < n -> (nnz j -> i <> rho j) -> (A i j == 0)%Q.
Proof.
  intros Li Lj D. destruct St as (_ & _ & _ & _ & X). destruct (Qeq_dec (A i j) 0) as [|N]; [auto|].
  apply X in N; auto. destruct N as [E H]. exfalso. apply (D H). destruct (nth_rho i Li) as [_ R]. rewrite E in R. auto.
Qed.

Definition Ash : mat := fun j i => if mem j (i_nnz d) && (i =? rho j) then (1 / A i j)%Q else 0%Q.
Lemma nnz_dec j : {nnz j} + {~ nnz j}.
Proof.
  destruct (mem j (i_nnz d)) eqn:E; [left|right].
  - apply (wf_nnz _ _ _ _ _ _ W), mem_In, E.
  - rewrite <- (wf_nnz _ _ _ _ _ _ W). now apply mem_not.
Qed.
Lemma mem_nnz j : nnz j -> mem j (i_nnz d) = true.
Proof. intros H. apply mem_In, (wf_nnz _ _ _ _ _ _ W), H. Qed.
Lemma mem_not_nnz j : ~ nnz j -> mem j (i_nnz d) = false.
Proof. intros H. apply mem_not. now rewrite (wf_nnz _ _ _ _ _ _ W). Qed.

Lemma Ash_mul inM j p : (mul m Ash inM j p == if mem j (i_nnz d) then (1 / A (rho j) j) * inM (rho j) p else 0)%Q.
Proof.
  unfold mul, Ash. destruct (nnz_dec j) as [H|H].
  - rewrite (mem_nnz j H). cbn [andb].
    rewrite <- (qsumn_delta (fun k => (1 / A k j) * inM k p)%Q m (rho j)) by (apply rho_lt; auto).
    apply qsumn_ext. intros k K. destruct (k =? rho j); ring.
  - rewrite (mem_not_nnz j H). cbn [andb]. apply qsumn_zero. intros; ring.
Qed.
Lemma ginverse : eqm m n (mul m (mul n A Ash) A) A.
Proof.
  intros i j Li Lj. unfold mul at 1. destruct (nnz_dec j) as [H|H].
  - assert (E : (qsumn (fun k => mul n A Ash i k * A k j) m == mul n A Ash i (rho j) * A (rho j) j)%Q).
    { rewrite <- (qsumn_delta (fun k => mul n A Ash i k * A k j)%Q m (rho j)) by (apply rho_lt; auto).
      apply qsumn_ext. intros k K. destruct (Nat.eqb_spec k (rho j)) as [->|D]; [reflexivity|].
      rewrite (A_zero k j) by auto. ring. }
    rewrite E. clear E.
    assert (E : (mul n A Ash i (rho j) == A i j * (1 / A (rho j) j))%Q).
    { unfold mul. rewrite <- (qsumn_delta (fun l => A i l * (1 / A (rho j) j))%Q n j Lj).
      apply qsumn_ext. intros k K. unfold Ash. destruct (nnz_dec k) as [Hk|Hk].
      - rewrite (mem_nnz k Hk). cbn [andb]. destruct (Nat.eqb_spec (rho j) (rho k)) as [X|X].
        + assert (k = j) by (rewrite <- (rho_nth k), <- (rho_nth j) by auto; congruence). subst k. rewrite Nat.eqb_refl. reflexivity.
        + destruct (Nat.eqb_spec k j) as [->|_]; [congruence|ring].
      - rewrite (mem_not_nnz k Hk). cbn [andb]. destruct (Nat.eqb_spec k j) as [->|_]; [contradiction|ring]. }
    rewrite E. clear E. field. now apply A_diag.
  - rewrite (A_zero i j) by tauto. apply qsumn_zero. intros k K. rewrite (A_zero k j) by tauto. ring.
Qed.

Lemma update_ok : update_ d A = Ok (map (fun j => 1 / A (rho j) j)%Q (i_nnz d)).
Proof.
  unfold update_. rewrite (wf_m _ _ _ _ _ _ W), (wf_n _ _ _ _ _ _ W), (wf_innz _ _ _ _ _ _ W). apply invLoop_spec.
  intros j I. apply (wf_nnz _ _ _ _ _ _ W) in I. split; [apply rho_lt; auto|]. split; [now apply nnz_lt|now apply A_diag].
Qed.
Lemma r_len : length (i_zeros d) = m - r /\ r <= m.
Proof.
  assert (H : length rows = length (i_nnz d ++ i_zeros d)).
  { apply Nat.le_antisymm; apply NoDup_incl_length.
    - apply sorted_NoDup, St.
    - intros x I. apply in_or_app. apply (proj1 (proj2 (proj2 St))) in I. now rewrite (wf_nnz _ _ _ _ _ _ W), (wf_zeros _ _ _ _ _ _ W).
    - apply NoDup_app_; [apply sorted_NoDup, (wf_snnz _ _ _ _ _ _ W)|apply sorted_NoDup, (wf_szeros _ _ _ _ _ _ W)|].
      intros x I1 I2. apply (wf_nnz _ _ _ _ _ _ W) in I1. apply (wf_zeros _ _ _ _ _ _ W) in I2. now apply (proj1 (proj2 (proj2 (proj2 St))) x).
    - intros x I. apply (proj1 (proj2 (proj2 St))). apply in_app_or in I. now rewrite (wf_nnz _ _ _ _ _ _ W), (wf_zeros _ _ _ _ _ _ W) in I. }
  rewrite app_length, (wf_len _ _ _ _ _ _ W), (proj1 (proj2 St)) in H. lia.
Qed.
Lemma cnnz_len : length (i_cnnz d) = n - r.
Proof.
  rewrite (wf_cnnz _ _ _ _ _ _ W). pose proof (length_cnnz (i_nnz d) n (wf_snnz _ _ _ _ _ _ W) (wf_bnnz _ _ _ _ _ _ W)) as H.
  rewrite (wf_len _ _ _ _ _ _ W) in H. lia.
Qed.
Lemma cnnz_In j : In j (i_cnnz d) <-> j < n /\ ~ nnz j.
Proof.
  rewrite (wf_cnnz _ _ _ _ _ _ W), filter_In, in_seq, negb_true_iff, mem_not, (wf_nnz _ _ _ _ _ _ W). intuition lia.
Qed.
Lemma premultiply_parts (minus : bool) (outA outS inM : mat) : exists a : mat,
  (forall j p, j < n -> (a j p == if minus then - mul m Ash inM j p else mul m Ash inM j p)%Q) /\
  premultiply d (map (fun j => 1 / A (rho j) j)%Q (i_nnz d)) minus outA outS inM =
    bind (mulS m (m - r) (i_zeros d) 0 inM outS) (fun s => Ok (a, s)).
Proof.
  unfold premultiply. rewrite (wf_m _ _ _ _ _ _ W), (wf_n _ _ _ _ _ _ W), (wf_r _ _ _ _ _ _ W), (wf_innz _ _ _ _ _ _ W).
  destruct (mulA_spec minus m n rho (fun j => 1 / A (rho j) j)%Q (i_nnz d) inM outA) as (a & E & H).
  { apply sorted_NoDup, (wf_snnz _ _ _ _ _ _ W). }
  { intros j I. apply (wf_nnz _ _ _ _ _ _ W) in I. split; [apply rho_lt; auto|now apply nnz_lt]. }
  fold ap. fold rho. rewrite E. cbn [bind].
  destruct (zeroRows_spec n (i_cnnz d) a) as (a' & E' & H'). { intros j I. apply cnnz_In in I. tauto. }
  rewrite E'. cbn [bind]. exists a'. split; [|reflexivity]. intros j p L. rewrite H', H.
  destruct (nnz_dec j) as [Hj|Hj].
  - rewrite (proj2 (mem_not j (i_cnnz d))) by (rewrite cnnz_In; tauto).
    destruct minus; rewrite Ash_mul, (mem_nnz j Hj); ring.
  - rewrite (proj2 (mem_In j (i_cnnz d))) by (rewrite cnnz_In; tauto).
    destruct minus; rewrite Ash_mul, (mem_not_nnz j Hj); ring.
Qed.

Lemma eqv_mulv_row v j : nnz j -> eqv m (mulv n A v) (fun _ => 0%Q) -> (v j == 0)%Q.
Proof.
  intros H E. specialize (E (rho j) (rho_lt j (or_introl H))).
  assert (X : (mulv n A v (rho j) == A (rho j) j * v j)%Q).
  { unfold mulv. rewrite <- (qsumn_delta (fun k => A (rho j) k * v k)%Q n j (nnz_lt j H)). apply qsumn_ext.
    intros k K. destruct (Nat.eqb_spec k j) as [->|D]; [reflexivity|]. rewrite A_zero; [ring|apply rho_lt; auto|auto|].
    intros Hk X. apply D. rewrite <- (rho_nth k), <- (rho_nth j) by auto. congruence. }
  rewrite X in E. apply Qmult_integral in E. destruct E as [E|E]; [|exact E]. now apply A_diag in E.
Qed.
Lemma null_basis : nullBasis m n (n - r) A (i_N d).
Proof.
  assert (B : nullBasis m n (n - r) A (sel (i_cnnz d))).
  { rewrite <- cnnz_len. apply sel_basis.
    - rewrite (wf_cnnz _ _ _ _ _ _ W). apply NoDup_filter, seq_NoDup.
    - intros x I. apply cnnz_In in I. tauto.
    - intros i x Li I. apply cnnz_In in I. apply A_zero; tauto.
    - intros v E x Lx NI. apply eqv_mulv_row; [|exact E]. destruct (nnz_dec x); [auto|]. exfalso. apply NI, cnnz_In. tauto. }
  assert (X : forall z a, (mulv (n - r) (i_N d) z a == mulv (n - r) (sel (i_cnnz d)) z a)%Q).
  { intros z a. apply qsumn_ext. intros k K. rewrite (wf_N _ _ _ _ _ _ W) by exact K. reflexivity. }
  destruct B as [B1 B2]. split.
  - intros i b Li Lb. specialize (B1 i b Li Lb). rewrite <- B1. apply qsumn_ext. intros k K. rewrite (wf_N _ _ _ _ _ _ W) by exact Lb. reflexivity.
  - intros v E. destruct (B2 v E) as (z & Ez & U). exists z. split.
    + intros a La. rewrite X. apply Ez, La.
    + intros z' E' . apply U. intros a La. rewrite <- X. apply E', La.
Qed.
Lemma post_ok (add : bool) (out inM : mat) : exists o, postMultiplyByN d add out inM = Ok o /\
  forall a b, b < n - r -> (o a b == if add then out a b + mul n inM (i_N d) a b else mul n inM (i_N d) a b)%Q.
Proof.
  unfold postMultiplyByN. rewrite (wf_n _ _ _ _ _ _ W), (wf_r _ _ _ _ _ _ W).
  destruct (mulN_spec add n (n - r) (i_cnnz d) inM 0 out) as (o & E & H).
  { rewrite cnnz_len. lia. } { intros x I. apply cnnz_In in I. tauto. }
  exists o. split; [exact E|]. intros a b Lb. rewrite H. rewrite cnnz_len, Nat.sub_0_r, Nat.add_0_l, (proj2 (Nat.ltb_lt b (n - r)) Lb). cbn [andb Nat.leb].
  assert (X : (mul n inM (i_N d) a b == inM a (nth b (i_cnnz d) 0%nat))%Q).
  { rewrite <- (sel_mul (i_cnnz d) n inM a b); [|rewrite cnnz_len; exact Lb|intros x I; apply cnnz_In in I; tauto].
    apply qsumn_ext. intros k K. rewrite (wf_N _ _ _ _ _ _ W) by exact Lb. reflexivity. }
  destruct add; rewrite X; reflexivity.
Qed.

(* the left null space *)
Lemma null_left_row v j : nnz j -> eqv n (mulv m (tr A) v) (fun _ => 0%Q) -> (v (rho j) == 0)%Q.
Proof.
  intros H E. specialize (E j (nnz_lt j H)).
  assert (X : (mulv m (tr A) v j == A (rho j) j * v (rho j))%Q).
  { unfold mulv, tr. rewrite <- (qsumn_delta (fun k => A k j * v k)%Q m (rho j)) by (apply rho_lt; auto). apply qsumn_ext.
    intros k K. destruct (Nat.eqb_spec k (rho j)) as [->|D]; [reflexivity|]. rewrite A_zero; [ring|auto|now apply nnz_lt|auto]. }
  rewrite X in E. apply Qmult_integral in E. destruct E as [E|E]; [|exact E]. now apply A_diag in E.
Qed.
Lemma zero_row z : zeros z -> forall j, j < n -> (A (rho z) j == 0)%Q.
Proof.
  intros Z j L. apply A_zero; [apply rho_lt; auto|exact L|]. intros Hj E.
  assert (z = j) by (rewrite <- (rho_nth z), <- (rho_nth j) by auto; congruence). subst j. exact (proj1 (proj2 (proj2 (proj2 St))) z Hj Z).
Qed.
Lemma outS_sel inM outS s : mulS m (m - r) (i_zeros d) 0 inM outS = Ok s ->
  (forall z, zeros z -> z < m) /\ forall a p, a < m - r -> (s a p == mul m (tr (sel (i_zeros d))) inM a p)%Q.
Proof.
  intros E. apply mulS_spec in E. destruct E as [B E].
  split; [intros z Z; apply B, (wf_zeros _ _ _ _ _ _ W), Z|]. intros a p La. rewrite E.
  rewrite (proj1 r_len), Nat.sub_0_r, Nat.add_0_l, (proj2 (Nat.ltb_lt a (m - r)) La). cbn [andb Nat.leb].
  unfold mul, tr, sel. rewrite <- (qsumn_delta (fun k => inM k p) m (nth a (i_zeros d) 0)).
  - apply qsumn_ext. intros k K. destruct (k =? nth a (i_zeros d) 0); ring.
  - apply B, nth_In. rewrite (proj1 r_len). exact La.
Qed.
Lemma full_rho : full nnz zeros -> forall z, zeros z -> rho z = z.
Proof. intros F z Z. apply rk_id. intros j L. apply ap_spec. apply (F z Z j L). Qed.
Lemma left_basis : full nnz zeros -> nullBasis n m (m - r) (tr A) (sel (i_zeros d)).
Proof.
  intros F. rewrite <- (proj1 r_len). apply sel_basis.
  - apply sorted_NoDup, (wf_szeros _ _ _ _ _ _ W).
  - intros x I. apply (wf_zeros _ _ _ _ _ _ W) in I. rewrite <- (full_rho F x I). apply rho_lt; auto.
  - intros i x Li I. apply (wf_zeros _ _ _ _ _ _ W) in I. unfold tr. rewrite <- (full_rho F x I). now apply zero_row.
  - intros v E x Lx NI. destruct (nth_rho x Lx) as [[H|H] R].
    + rewrite <- R. now apply null_left_row.
    + exfalso. apply NI, (wf_zeros _ _ _ _ _ _ W). rewrite <- R, (full_rho F _ H). exact H.
Qed.
(* conversely *)
Lemma left_zero_full s outS : mulS m (m - r) (i_zeros d) 0 A outS = Ok s -> eqm (m - r) n s zero -> full nnz zeros.
Proof.
  intros E Z.
  assert (K : forall z, zeros z -> z < m /\ zeros (nth z rows 0)).
  { intros z Hz. destruct (mulS_spec _ _ _ _ _ _ _ E) as [B E']. assert (Iz := proj2 (wf_zeros _ _ _ _ _ _ W z) Hz).
    specialize (B z Iz). split; [exact B|]. destruct (nth_rho z B) as [[H|H] R]; [|exact H]. exfalso.
    destruct (In_nth _ _ 0 Iz) as (a & La & Ea). rewrite (proj1 r_len) in La.
    specialize (Z a (nth z rows 0) La (nnz_lt _ H)). unfold zero in Z. rewrite E' in Z.
    rewrite (proj1 r_len), Nat.sub_0_r, Nat.add_0_l, (proj2 (Nat.ltb_lt a (m - r)) La), Ea in Z. cbn [andb Nat.leb] in Z.
    apply (A_diag _ H). rewrite R. exact Z. }
  (* the positions of the zero rows are the indices of the zero rows *)
  assert (X : map rho (i_zeros d) = i_zeros d).
  { assert (M : forall l, StronglySorted lt l -> (forall x, In x l -> zeros x) -> StronglySorted lt (map rho l)).
    { induction 1 as [|a l S1 IH F]; intros Hz; simpl; constructor; [apply IH; intros; apply Hz; simpl; auto|].
      rewrite Forall_forall in *. intros y Iy. apply in_map_iff in Iy. destruct Iy as (x & <- & Ix).
      apply rk_lt; [auto|]. apply ap_spec. right. apply Hz. simpl. auto. }
    apply sorted_unique.
    - apply M; [apply (wf_szeros _ _ _ _ _ _ W)|intros x I; now apply (wf_zeros _ _ _ _ _ _ W)].
    - apply (wf_szeros _ _ _ _ _ _ W).
    - assert (I1 : incl (i_zeros d) (map rho (i_zeros d))).
      { intros z Iz. apply (wf_zeros _ _ _ _ _ _ W) in Iz. destruct (K z Iz) as [Lz Hz]. destruct (nth_rho z Lz) as [_ R].
        rewrite <- R. apply in_map, (wf_zeros _ _ _ _ _ _ W), Hz. }
      intros x. split; [|apply I1]. apply NoDup_length_incl; [apply sorted_NoDup, (wf_szeros _ _ _ _ _ _ W)|now rewrite map_length|exact I1]. }
  intros z Hz j Lj. apply ap_spec. apply (proj1 (rk_id ap z)); [|exact Lj].
  assert (Iz := proj2 (wf_zeros _ _ _ _ _ _ W z) Hz). destruct (In_nth _ _ 0 Iz) as (a & La & Ea).
  rewrite <- Ea at 2. rewrite <- X. rewrite (nth_indep _ 0 (rho 0)) by (rewrite map_length; exact La). rewrite map_nth, Ea. reflexivity.
Qed.
End Main.
