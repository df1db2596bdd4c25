(* Proofs about JointsModel. *)
From Coq Require Import List Bool Arith ZArith Lia Permutation Sorted.
Import ListNotations.
From Verif Require Import Base JointsModel JointsSpec.
Local Open Scope Z_scope.

Definition hit (p : Z * Z) (z : Z) : Prop := fst p <= z < fst p + snd p.
Definition dofOf (mb : mbody) (i : nat) : nat := jdof (nth i mb (mkJ 0 0)).

Lemma indexFrom_spec : forall mb n i k, indexFrom mb n i = Some k -> (i <= k)%nat /\ exists j, nth_error mb (k - i) = Some j /\ jname j = n.
Proof.
  induction mb as [|j mb IH]; intros n i k H; [discriminate|]. cbn [indexFrom] in H. destruct (Nat.eqb_spec (jname j) n) as [E|E].
  - injection H as <-. split; [lia|]. exists j. rewrite Nat.sub_diag. auto.
  - apply IH in H as (L & j' & A & B). split; [lia|]. exists j'. replace (k - i)%nat with (S (k - S i)) by lia. auto.
Qed.
Lemma indexFrom_known : forall mb n i, In n (map jname mb) -> exists k, indexFrom mb n i = Some k.
Proof.
  induction mb as [|j mb IH]; intros n i H; [destruct H|]. cbn [indexFrom]. destruct (Nat.eqb_spec (jname j) n) as [E|E]; [eauto|]. destruct H as [H|H]; [congruence|]. now apply IH.
Qed.
Lemma index_spec : forall mb n k, jointIndexByName mb n = Some k -> exists j, nth_error mb k = Some j /\ jname j = n.
Proof. intros mb n k H. apply indexFrom_spec in H as (_ & j & A & B). rewrite Nat.sub_0_r in A. eauto. Qed.
Lemma index_known : forall mb n, In n (map jname mb) -> exists k j, jointIndexByName mb n = Some k /\ nth_error mb k = Some j /\ jname j = n.
Proof. intros mb n H. destruct (indexFrom_known mb n 0 H) as (k & E). destruct (index_spec _ _ _ E) as (j & A & B). exists k, j. auto. Qed.
Lemma index_of : forall mb k j, NoDup (map jname mb) -> nth_error mb k = Some j -> jointIndexByName mb (jname j) = Some k.
Proof.
  intros mb k j N H. destruct (index_known mb (jname j)) as (k' & j' & A & B & E); [apply in_map; eapply nth_error_In; eauto|]. rewrite A. f_equal.
  rewrite NoDup_nth_error in N. apply N.
  - rewrite map_length. apply nth_error_Some. congruence.
  - rewrite !(map_nth_error _ _ _ H), (map_nth_error _ _ _ B). congruence.
Qed.

Lemma nrDof_cons : forall j mb, nrDof (j :: mb) = (jdof j + nrDof mb)%nat.
Proof. reflexivity. Qed.
Lemma pos_end : forall mb k j, nth_error mb k = Some j -> (jointPosInDof mb k + jdof j <= nrDof mb)%nat.
Proof.
  unfold jointPosInDof. induction mb as [|x mb IH]; intros [|k] j H; try discriminate; cbn [nth_error firstn] in *.
  - injection H as ->. rewrite nrDof_cons. cbn. lia.
  - specialize (IH _ _ H). rewrite !nrDof_cons. lia.
Qed.
Lemma pos_root : forall j mb k, (k <> 0)%nat -> (jdof j <= jointPosInDof (j :: mb) k)%nat.
Proof. intros j mb [|k] H; [congruence|]. unfold jointPosInDof. cbn [firstn]. rewrite nrDof_cons. lia. Qed.

(* names that may be met by the loop *)
Definition good (mb : mbody) (n : nat) : Prop := In n (map jname mb) /\ (hasFF mb = true -> rootName mb <> Some n).
Definition cover (mb : mbody) (n : nat) (z : Z) : Prop := exists k j, nth_error mb k = Some j /\ jname j = n /\
  Z.of_nat (jointPosInDof mb k) - ffSize mb <= z < Z.of_nat (jointPosInDof mb k) - ffSize mb + Z.of_nat (jdof j).
Definition qsize (mb : mbody) : Z := Z.of_nat (nrDof mb) - ffSize mb.
Definition within (mb : mbody) (p : Z * Z) : Prop := 0 <= fst p /\ 0 < snd p /\ fst p + snd p <= qsize mb.

Lemma scan_spec : forall mb, NoDup (map jname mb) -> forall joints acc start size,
  (forall n, In n joints -> good mb n) -> (forall p, In p acc -> within mb p) -> size = 0 \/ within mb (start, size) ->
  exists idx, scan mb joints acc start size = Ok idx /\ (forall p, In p idx -> within mb p) /\
  forall z, (exists p, In p idx /\ hit p z) <-> (exists p, In p acc /\ hit p z) \/ hit (start, size) z \/ (exists n, In n joints /\ cover mb n z).
Proof.
  intros mb ND. induction joints as [|n joints IH]; intros acc start size G A S.
  - cbn [scan]. destruct (Z.eqb_spec size 0) as [E|E].
    + exists acc. split; [reflexivity|]. split; [exact A|]. intros z. unfold hit. cbn [fst snd]. split; [auto|]. intros [H|[H|(n & [] & _)]]; [exact H|lia].
    + destruct S as [S|S]; [congruence|]. exists (acc ++ [(start, size)]). split; [reflexivity|]. split.
      * intros p I. apply in_app_iff in I as [I|[<-|[]]]; auto.
      * intros z. split.
        -- intros (p & I & H). apply in_app_iff in I as [I|[<-|[]]]; eauto.
        -- intros [(p & I & H)|[H|(n & [] & _)]]; [exists p|exists (start, size)]; split; auto; apply in_app_iff; cbn; auto.
  - cbn [scan]. destruct (G n (or_introl eq_refl)) as [K R]. destruct (index_known mb n K) as (k & j & E1 & E2 & E3). rewrite E1.
    assert (Ej : nth k mb (mkJ 0 0) = j) by (now apply nth_error_nth). rewrite Ej.
    set (pos := Z.of_nat (jointPosInDof mb k) - ffSize mb). set (d := Z.of_nat (jdof j)).
    assert (Bd : 0 <= pos /\ pos + d <= qsize mb).
    { pose proof (pos_end _ _ _ E2). unfold pos, d, qsize. split; [|lia]. unfold ffSize. destruct (hasFF mb) eqn:F; [|lia].
      destruct mb as [|x mb]; [discriminate|]. cbn [hasFF] in F. apply Nat.eqb_eq in F. destruct k as [|k].
      - exfalso. cbn in E2. injection E2 as ->. apply R; [reflexivity|]. cbn. congruence.
      - pose proof (pos_root x mb (Datatypes.S k) ltac:(lia)). lia. }
    assert (Cv : forall z, cover mb n z <-> pos <= z < pos + d).
    { intros z. split; [|intros H; exists k, j; auto]. intros (k' & j' & F1 & F2 & F3). pose proof (index_of _ _ _ ND F1) as F4. rewrite F2, E1 in F4. injection F4 as <-. assert (j' = j) by congruence. subst j'. exact F3. }
    destruct (Z.eqb_spec pos (start + size)) as [E|E]; cbn [negb].
    + destruct (IH acc start (size + d)) as (idx & I1 & I2 & I3); auto.
      * intros m I. apply G. now right.
      * destruct (Z.eq_dec (size + d) 0) as [Z0|Z0]; [now left|right]. unfold within in *. cbn [fst snd] in *. lia.
      * exists idx. split; [exact I1|]. split; [exact I2|]. intros z. rewrite I3. unfold hit at 2. cbn [fst snd]. split.
        -- intros [H|[H|(m & M1 & M2)]]; [auto| |right; right; exists m; cbn; auto].
           destruct (Z.lt_ge_cases z (start + size)); [right; left; unfold hit; cbn; lia|]. right; right. exists n. split; [now left|]. apply Cv. lia.
        -- intros [H|[H|(m & [<-|M1] & M2)]]; [auto|right; left; unfold hit in H; cbn in H; lia| |right; right; eauto]. apply Cv in M2. right; left.
           destruct S as [S|S]; [lia|]. unfold within in S. cbn in S. lia.
    + set (acc' := if size =? 0 then acc else acc ++ [(start, size)]).
      assert (A' : (forall p, In p acc' -> within mb p) /\ forall z, (exists p, In p acc' /\ hit p z) <-> (exists p, In p acc /\ hit p z) \/ hit (start, size) z).
      { unfold acc'. destruct (Z.eqb_spec size 0) as [Z0|Z0].
        - split; [exact A|]. intros z. split; [auto|]. intros [H|H]; [exact H|]. unfold hit in H. cbn in H. lia.
        - destruct S as [S|S]; [congruence|]. split.
          + intros p I. apply in_app_iff in I as [I|[<-|[]]]; auto.
          + intros z. split.
            * intros (p & I & H). apply in_app_iff in I as [I|[<-|[]]]; eauto.
            * intros [(p & I & H)|H]; [exists p|exists (start, size)]; split; auto; apply in_app_iff; cbn; auto. }
      destruct A' as [A1 A2]. destruct (IH acc' pos d) as (idx & I1 & I2 & I3); auto.
      * intros m I. apply G. now right.
      * destruct (Z.eq_dec d 0) as [Z0|Z0]; [now left|right]. unfold within. cbn [fst snd]. unfold d in *. lia.
      * exists idx. split; [exact I1|]. split; [exact I2|]. intros z. rewrite I3, A2. split.
        -- intros [[H|H]|[H|(m & M1 & M2)]]; [auto|auto| |right; right; exists m; cbn; auto]. right; right. exists n. split; [now left|]. apply Cv. exact H.
        -- intros [H|[H|(m & [<-|M1] & M2)]]; [auto|auto| |right; right; eauto]. apply Cv in M2. right; left. exact M2.
Qed.

(* What the sort says about the free-flyer. *)
Lemma sorted_root : forall mb l sorted, NoDup (map jname mb) -> known mb l -> ffOnce mb l -> sortOf mb l sorted -> mb <> [] ->
  exists rest, (match sorted with j :: _ => match rootName mb with Some r => Nat.eqb j r | None => false end | [] => false end && hasFF mb = true <-> activeFF mb l) /\
  rest = (if match sorted with j :: _ => match rootName mb with Some r => Nat.eqb j r | None => false end | [] => false end && hasFF mb then tl sorted else sorted) /\
  (forall n, In n rest -> good mb n) /\
  (forall n, In n l -> In n rest \/ (hasFF mb = true /\ rootName mb = Some n)) /\ (forall n, In n rest -> In n l).
Proof.
  intros mb l sorted ND K O [P St] NE. destruct mb as [|j0 mb]; [congruence|]. set (M := j0 :: mb) in *. assert (X : rootName M = Some (jname j0)) by reflexivity. rewrite X.
  assert (IP : forall n, In n l <-> In n sorted) by (intros n; split; apply Permutation_in; [|apply Permutation_sym]; exact P).
  assert (CO : forall n, count_occ Nat.eq_dec l n = count_occ Nat.eq_dec sorted n) by (now apply Permutation_count_occ).
  assert (Head : hasFF M = true -> In (jname j0) sorted -> exists rest, sorted = jname j0 :: rest /\ ~ In (jname j0) rest).
  { intros F I. destruct sorted as [|n rest]; [destruct I|]. assert (n = jname j0).
    { destruct I as [I|I]; [exact I|]. apply StronglySorted_inv in St as [_ St]. rewrite Forall_forall in St. destruct (St _ I) as (x & y & A & B & L).
      unfold key in A, B. destruct (jointIndexByName M n) as [k|] eqn:E; [|discriminate]. cbn in A. injection A as <-.
      assert (E0 : jointIndexByName M (jname j0) = Some 0%nat) by (apply index_of; auto). rewrite E0 in B. cbn in B. injection B as <-.
      destruct k as [|k]; [destruct (index_spec _ _ _ E) as (j & J1 & J2); cbn in J1; congruence|].
      exfalso. pose proof (pos_root j0 mb (S k) ltac:(lia)). cbn [hasFF M] in F. apply Nat.eqb_eq in F. fold M in H. lia. }
    subst n. exists rest. split; [reflexivity|]. intros I'. pose proof (O _ X F) as C. rewrite CO in C. cbn [count_occ] in C. destruct (Nat.eq_dec (jname j0) (jname j0)); [|congruence].
    apply (count_occ_In Nat.eq_dec) in I'. lia. }
  eexists. split; [|split; [reflexivity|]].
  - split.
    + intros H. apply andb_true_iff in H as [H F]. destruct sorted as [|n rest]; [discriminate|]. apply Nat.eqb_eq in H. split; [exact F|]. exists n. split; [rewrite X; congruence|]. apply IP. now left.
    + intros (F & r & R & I). rewrite X in R. injection R as <-. apply IP in I. destruct (Head F I) as (rest & -> & _). rewrite Nat.eqb_refl. exact F.
  - destruct (match sorted with j :: _ => Nat.eqb j (jname j0) | [] => false end && hasFF M) eqn:B.
    + apply andb_true_iff in B as [B F]. destruct sorted as [|n rest]; [discriminate|]. apply Nat.eqb_eq in B. subst n. destruct (Head F (or_introl eq_refl)) as (rest' & R & NI). injection R as <-. cbn [tl]. split; [|split].
      * intros n I. split; [apply K, IP; now right|]. intros _ R. rewrite X in R. injection R as <-. contradiction.
      * intros n I. apply IP in I as [<-|I]; auto.
      * intros n I. apply IP. now right.
    + split; [|split].
      * intros n I. split; [apply K, IP; exact I|]. intros F R. rewrite X in R. injection R as <-. destruct (Head F I) as (rest & -> & _). rewrite Nat.eqb_refl, F in B. discriminate.
      * intros n I. left. now apply IP.
      * intros n I. now apply IP.
Qed.

Theorem select_spec : forall mb l sorted, NoDup (map jname mb) -> mb <> [] -> known mb l -> ffOnce mb l -> sortOf mb l sorted ->
  exists ff idx, select mb sorted = Ok (ff, idx) /\ (ff = true <-> activeFF mb l) /\ (forall p, In p idx -> within mb p) /\
  (forall c, (exists p, In p idx /\ hit p (Z.of_nat c)) <-> activeCol mb l c) /\ (idx <> [] <-> activeQ mb l).
Proof.
  intros mb l sorted ND NE K O S. destruct (sorted_root mb l sorted ND K O S NE) as (rest & B & R & G & L1 & L2). unfold select. rewrite <- R.
  set (ff := match sorted with j :: _ => _ | [] => _ end && hasFF mb) in *.
  destruct (scan_spec mb ND rest [] 0 0 G) as (idx & I1 & I2 & I3); [intros p []|now left|]. exists ff, idx.
  assert (Hc : forall c, (exists p, In p idx /\ hit p (Z.of_nat c)) <-> activeCol mb l c).
  { intros c. rewrite I3. split.
    - intros [(p & [] & _)|[H|(n & I & (k & j & C1 & C2 & C3))]]; [unfold hit in H; cbn in H; lia|]. exists k, j. split; [exact C1|]. split; [rewrite C2; now apply L2|]. exists j. split; [exact C1|].
      assert (0 <= ffSize mb) by (unfold ffSize; destruct (hasFF mb); lia). lia.
    - intros (k & j & C1 & C2 & (j' & C3 & C4)). assert (j' = j) by congruence. subst j'. right; right. exists (jname j). assert (0 <= ffSize mb) by (unfold ffSize; destruct (hasFF mb); lia). split.
      + destruct (L1 _ C2) as [H'|[F X]]; [exact H'|]. exfalso. unfold ffSize in C4. rewrite F in C4. destruct mb as [|j0 mb]; [congruence|]. cbn in X. injection X as X.
        assert (k = 0%nat). { pose proof (index_of _ _ _ ND C1) as P1. pose proof (index_of (j0 :: mb) 0 j0 ND eq_refl) as P2. rewrite X in P2. congruence. }
        subst k. cbn in C1. injection C1 as ->. cbn [hasFF] in F. apply Nat.eqb_eq in F. unfold jointPosInDof in C4. cbn [firstn] in C4. change (nrDof []) with 0%nat in C4. lia.
      + exists k, j. split; [exact C1|]. split; [reflexivity|]. lia. }
  split; [destruct mb; [congruence|]; rewrite I1; reflexivity|]. split; [exact B|]. split; [exact I2|]. split; [exact Hc|]. split.
  - intros H. destruct idx as [|p idx]; [congruence|]. destruct (I2 p (or_introl eq_refl)) as (W1 & W2 & W3). exists (Z.to_nat (fst p)). unfold qsize in W3. split; [lia|]. apply Hc. exists p. split; [now left|]. unfold hit. lia.
  - intros (c & _ & H) ->. apply Hc in H as (p & [] & _).
Qed.
