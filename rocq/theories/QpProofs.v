(* Columns of the variables, runs of a list of assignments with disjoint rows. *)
Require Import QArith Qminmax List Arith Bool Lia Lqa.
Require Import Verif.Base Verif.QSum Verif.AssignModel Verif.AssignSpec Verif.AssignProofs3 Verif.AssignProofs4 Verif.AssignProofs5
  Verif.BoundModel Verif.BoundSpec Verif.QpModel Verif.QpSpec.
Import ListNotations.
Local Open Scope Q_scope.

Lemma qsumn_split f a b : qsumn f (a + b) == qsumn f a + qsumn (fun k => f (a + k)%nat) b.
Proof.
  unfold qsumn. rewrite seq_app, qsum_app. simpl. apply Qplus_inj_l.
  generalize a. clear a. induction b as [|b IH]; intros a; simpl; [reflexivity|].
  rewrite Nat.add_0_r. apply Qplus_inj_l.
  assert (E : forall (g : nat -> Q) s l, qsum g (seq (S s) l) == qsum (fun k => g (S k)) (seq s l)).
  { clear. intros g s l. rewrite <- seq_shift. generalize (seq s l). intros l'. induction l' as [|x l' IH]; simpl; [reflexivity|]. rewrite IH. reflexivity. }
  rewrite (E (fun k => f (a + k)%nat) 0%nat b). rewrite (IH (S a)). apply qsum_ext. intros k _.
  replace (S a + k)%nat with (a + S k)%nat by lia. reflexivity.
Qed.

Section Cols.
Variable v_size : nat -> nat.
Notation total := (total v_size).
Notation startIn := (startIn v_size).
Notation offset := (offset v_size).
Notation owner := (owner v_size).

Lemma startIn_in vars y : In y vars -> startIn vars y = Some (offset vars y).
Proof.
  induction vars as [|z l IH]; intros I; [destruct I|]. simpl. destruct (Nat.eqb_spec z y) as [E|E]; [reflexivity|].
  destruct I as [I|I]; [congruence|]. rewrite IH by auto. reflexivity.
Qed.
Lemma startIn_out vars y : ~ In y vars -> startIn vars y = None.
Proof.
  induction vars as [|z l IH]; intros I; [reflexivity|]. simpl in *. destruct (Nat.eqb_spec z y) as [E|E]; [tauto|].
  rewrite IH by tauto. reflexivity.
Qed.
Lemma col_offset vars y : In y vars -> col (startIn vars) y = offset vars y.
Proof. intros I. unfold col. rewrite startIn_in; auto. Qed.
Lemma owner_offset vars y k : In y vars -> (k < v_size y)%nat -> owner vars (offset vars y + k) = Some (y, k).
Proof.
  induction vars as [|z l IH]; intros I K; [destruct I|]. simpl. destruct (Nat.eqb_spec z y) as [E|E].
  - subst z. simpl. destruct (Nat.ltb_spec k (v_size y)); [reflexivity|lia].
  - destruct I as [I|I]; [congruence|]. destruct (Nat.ltb_spec (v_size z + offset l y + k) (v_size z)); [lia|].
    replace (v_size z + offset l y + k - v_size z)%nat with (offset l y + k)%nat by lia. auto.
Qed.
Lemma owner_total vars j : NoDup vars -> (j < total vars)%nat ->
  exists y k, owner vars j = Some (y, k) /\ In y vars /\ (k < v_size y)%nat /\ j = (offset vars y + k)%nat.
Proof.
  intros N. revert j. induction N as [|z l NI N IH]; intros j J; [unfold QpModel.total in J; simpl in J; lia|].
  unfold QpModel.total in J. simpl in J. simpl. destruct (Nat.ltb_spec j (v_size z)) as [L|L].
  - exists z, j. rewrite Nat.eqb_refl. auto.
  - destruct (IH (j - v_size z)%nat) as (y & k & O & I & K & E); [unfold QpModel.total; lia|].
    exists y, k. destruct (Nat.eqb_spec z y) as [->|_]; [contradiction|]. repeat split; auto. lia.
Qed.
Lemma offset_lt vars y k : NoDup vars -> In y vars -> (k < v_size y)%nat -> (offset vars y + k < total vars)%nat.
Proof.
  induction 1 as [|z l NI N IH]; intros I K; [destruct I|]. unfold QpModel.total in *. simpl.
  destruct (Nat.eqb_spec z y) as [->|E]; [lia|]. destruct I as [I|I]; [congruence|]. specialize (IH I K). lia.
Qed.
Lemma layout_startIn vars : NoDup vars -> layout v_size vars (startIn vars).
Proof.
  intros N. split; [exact N|]. split.
  - intros y. split.
    + intros I. rewrite startIn_in by auto. discriminate.
    + intros H. destruct (in_dec Nat.eq_dec y vars) as [I|I]; [auto|]. rewrite startIn_out in H by auto. congruence.
  - intros y z c c' NE My Mz k k' K K' E.
    assert (Iy : In y vars) by (destruct (in_dec Nat.eq_dec y vars) as [I|I]; [auto|rewrite startIn_out in My by auto; discriminate]).
    assert (Iz : In z vars) by (destruct (in_dec Nat.eq_dec z vars) as [I|I]; [auto|rewrite startIn_out in Mz by auto; discriminate]).
    rewrite startIn_in in My, Mz by auto. injection My as <-. injection Mz as <-.
    pose proof (owner_offset vars y k Iy K) as A. rewrite E, (owner_offset vars z k' Iz K') in A. congruence.
Qed.
Lemma sum_by_var vars f : NoDup vars ->
  qsumn f (total vars) == qsum (fun y => qsumn (fun k => f (offset vars y + k)%nat) (v_size y)) vars.
Proof.
  intros N. revert f. induction N as [|z l NI N IH]; intros f; [reflexivity|].
  change (total (z :: l)) with (v_size z + total l)%nat. rewrite qsumn_split, IH. cbn [qsum].
  simpl. rewrite Nat.eqb_refl. apply Qplus_inj_l. apply qsum_ext. intros y I. destruct (Nat.eqb_spec z y) as [->|E]; [contradiction|].
  apply qsumn_ext. intros k _. rewrite Nat.add_assoc. reflexivity.
Qed.
Lemma rowval_rowv vars A z r : NoDup vars ->
  rowval v_size (startIn vars) vars A (fun y k => z (offset vars y + k)%nat) r == rowv (total vars) A z r.
Proof.
  intros N. unfold rowv, dot. rewrite sum_by_var by auto. apply qsum_ext. intros y I. rewrite col_offset by auto. reflexivity.
Qed.
End Cols.

(* ---- a list of assignments ---- *)
Definition rows_of (t : target) (r : nat) : Prop := (t_start t <= r < t_start t + t_dim t)%nat.
Definition disjoint (t t' : target) : Prop := forall r, rows_of t r -> rows_of t' r -> False.
Lemma same_row_refl m r : same_row m m r.
Proof. unfold same_row. auto. Qed.
Lemma same_row_sym m m' r : same_row m m' r -> same_row m' m r.
Proof. unfold same_row. intuition congruence. Qed.
Lemma not_rows_outside t r : ~ rows_of t r -> outside t r.
Proof. unfold rows_of, outside. lia. Qed.

Section Runs.
Variable abig : Q.
Variable v_size : nat -> nat.
Variable vars : list nat.
Variable sub : substs.
Hypothesis N : NoDup vars.
Notation mapping := (startIn v_size vars).
Definition item : Type := source * (target * assignment).
Definition isound (a : item) : Prop := sound abig v_size mapping (fst a) (fst (snd a)) sub (snd (snd a)).
Definition iclean (A : mat) (a : item) : Prop := clean v_size mapping vars (fst a) sub (fst (snd a)) A.
Definition idisj (a b : item) : Prop := disjoint (fst (snd a)) (fst (snd b)).

Lemma clean_same a m m' : (forall r, rows_of (fst (snd a)) r -> same_row m m' r) -> iclean (mA m) a -> iclean (mA m') a.
Proof.
  intros E C r y k Hr Y K N1 N2. destruct (E r Hr) as [S _]. rewrite S. apply C; auto.
Qed.
Lemma runAll_facts l : Forall isound l -> ForallOrdPairs idisj l -> forall Vs m, length Vs = length l -> Forall (iclean (mA m)) l ->
  let m' := runAll v_size (map snd l) Vs m in
  Forall (iclean (mA m')) l /\
  (forall a V, In (a, V) (combine l Vs) -> exists m0, iclean (mA m0) a /\
     forall r, rows_of (fst (snd a)) r -> same_row (run v_size V (fst (snd a)) (snd (snd a)) m0) m' r) /\
  (forall r, (forall a, In a l -> ~ rows_of (fst (snd a)) r) -> same_row m m' r).
Proof.
  intros S D. revert S. induction D as [|a l Da D IH]; intros S Vs m L C.
  - simpl. repeat split; auto. intros a V [].
  - destruct Vs as [|V Vs]; [discriminate|]. simpl in L. apply Nat.succ_inj in L. inversion S as [|? ? Sa Sl]; subst. inversion C as [|? ? Ca Cl]; subst.
    destruct a as (src & t & g). unfold runAll. simpl. fold (runAll v_size (map snd l) Vs (run v_size V t g m)).
    set (m1 := run v_size V t g m).
    assert (C1 : Forall (iclean (mA m1)) l).
    { rewrite Forall_forall in *. intros b B. apply (clean_same b m m1); [|apply Cl, B].
      intros r R. apply run_frame, not_rows_outside. intros R'. exact (Da b B r R' R). }
    assert (A1 : iclean (mA m1) (src, (t, g))) by (apply (clean_run abig); [apply layout_startIn, N|exact Sa|exact Ca]).
    destruct (IH Sl Vs m1 L C1) as (I1 & I2 & I3). set (m' := runAll v_size (map snd l) Vs m1) in *.
    assert (K : forall r, rows_of t r -> same_row m1 m' r).
    { intros r R. apply I3. intros b B R'. rewrite Forall_forall in Da. exact (Da b B r R R'). }
    split; [|split].
    + constructor; [|exact I1]. apply (clean_same (src, (t, g)) m1 m' K A1).
    + intros b W [E|I].
      * injection E as <- <-. exists m. split; [exact Ca|exact K].
      * apply I2, I.
    + intros r R. eapply same_row_trans; [|apply I3; intros b B; apply R; right; exact B].
      apply run_frame, not_rows_outside. apply (R (src, (t, g))). left. reflexivity.
Qed.
End Runs.
