(* C31: what a scheme accepts. *)
From Coq Require Import ZArith List Bool Lia.
Import ListNotations.
From Verif Require Import AbilitiesModel.
Local Open Scope Z_scope.

(* Specification: the entry of the declared table that applies to level p, and what it allows. *)
Definition entry (m : list (Z * level)) (p : Z) (l : level) : Prop :=
  find p m = Some l \/ (find p m = None /\ find GeneralLevel m = Some l).
Definition allows (l : level) (t : ctype) (v : vet) : Prop :=
  (t = EQUAL \/ lv_ineq l = true) /\ In v (lv_types l).
(* Levels at and above the number of levels need scalarization; -1 is "no limit". *)
Definition levelAllowed (n : Z) (scal : bool) (p : Z) : Prop := n = NoLimit \/ p < n \/ scal = true.

Lemma vet_in v l : existsb (vet_eqb v) l = true <-> In v l.
Proof.
  rewrite existsb_exists. split.
  - intros (x & I & E). destruct v, x; try discriminate; exact I.
  - intros I. exists v. split; [exact I|destruct v; reflexivity].
Qed.
Lemma checkLevel_allows l t v : checkLevel l t v = Accept <-> allows l t v.
Proof.
  unfold checkLevel, allows. rewrite <- vet_in.
  destruct t, (lv_ineq l), (existsb _ _); simpl; intuition discriminate.
Qed.
Lemma checkLevel_err l t v : checkLevel l t v <> OutOfRange.
Proof. unfold checkLevel. destruct (_ && _); [discriminate|]. destruct (existsb _ _); discriminate. Qed.
Lemma levelsGiven_find n m p : levelsGiven n m = true -> 0 <= p < Z.of_nat n -> find p m <> None.
Proof.
  induction n as [|n IH]; intros G R; [lia|]. simpl in G. apply andb_prop in G as [G1 G2].
  destruct (Z.eq_dec p (Z.of_nat n)) as [->|D].
  - destruct (find _ m); discriminate.
  - apply IH; [exact G1|lia].
Qed.

Lemma check_exact_l n m scal a t p v : make n m scal = Some a -> 0 <= p -> n <> 0 ->
  (check a t p v = Accept <-> levelAllowed n scal p /\ exists l, entry m p l /\ allows l t v).
Proof.
  intros M P N. assert (E : a = mkAb n scal m).
  { unfold make in M. destruct (_ && _); [discriminate|]. destruct (0 <=? n).
    - destruct (find _ m); [congruence|]. destruct (levelsGiven _ m); congruence.
    - destruct (find _ m); congruence. }
  assert (NL : 0 < n \/ n = NoLimit).
  { unfold make in M. destruct (Z.ltb_spec n 0).
    - destruct (Z.eqb_spec n NoLimit); [now right|discriminate].
    - left. lia. }
  subst a. unfold check; simpl. unfold levelAllowed, entry.
  assert (L : (0 <? n) && (n <=? p) && negb scal = true <-> ~ (n = NoLimit \/ p < n \/ scal = true)).
  { unfold NoLimit, GeneralLevel in *. rewrite !andb_true_iff, negb_true_iff, Z.ltb_lt, Z.leb_le.
    destruct scal; intuition (try discriminate; try lia). }
  destruct (_ && _ && _).
  - split; [discriminate|]. intros [H _]. exfalso. now apply L.
  - assert (LA : n = NoLimit \/ p < n \/ scal = true).
    { unfold NoLimit, GeneralLevel in *. destruct scal; [auto|].
      destruct (Z.lt_ge_cases p n); [auto|]. destruct NL; [|auto].
      exfalso. assert (false = true); [|discriminate]. apply L. intros [?|[?|?]]; try discriminate; lia. }
    clear L. destruct (find p m) as [l|] eqn:F.
    + rewrite checkLevel_allows. split.
      * intros A. split; [exact LA|]. exists l. auto.
      * intros (_ & l' & [E|[E _]] & A); congruence.
    + destruct (find GeneralLevel m) as [l|].
      * rewrite checkLevel_allows. split.
        -- intros A. split; [exact LA|]. exists l. auto.
        -- intros (_ & l' & [E|[_ E]] & A); congruence.
      * split; [discriminate|]. intros (_ & l' & [E|[_ E]] & A); discriminate.
Qed.

Lemma check_refuses_l n m scal a t p v : make n m scal = Some a -> 0 <= p -> n <> 0 ->
  (check a t p v = OutOfRange <-> 0 < n <= p /\ scal = true /\ find p m = None /\ find GeneralLevel m = None).
Proof.
  intros M P N. assert (E : a = mkAb n scal m).
  { unfold make in M. destruct (_ && _); [discriminate|]. destruct (0 <=? n).
    - destruct (find _ m); [congruence|]. destruct (levelsGiven _ m); congruence.
    - destruct (find _ m); congruence. }
  unfold make in M. subst a. unfold check; simpl.
  destruct (Z.ltb_spec n 0).
  - destruct (Z.eqb_spec n NoLimit); [|discriminate]. simpl in M.
    destruct (Z.leb_spec 0 n); [lia|]. destruct (find GeneralLevel m) as [g|] eqn:G; [|discriminate].
    destruct (Z.ltb_spec 0 n); [lia|]. simpl. destruct (find p m) as [l|].
    + split; [intros E; exfalso; revert E; apply checkLevel_err|intros (? & _); lia].
    + split; [intros E; exfalso; revert E; apply checkLevel_err|intros (? & _); lia].
  - simpl in M. destruct (Z.leb_spec 0 n); [|lia]. destruct (Z.ltb_spec 0 n); [|lia]. simpl.
    destruct (find GeneralLevel m) as [g|] eqn:G.
    + destruct (_ && _).
      * split; [discriminate|]. intros (_ & _ & _ & E). discriminate.
      * destruct (find p m); (split; [intros E; exfalso; revert E; apply checkLevel_err|intros (_ & _ & _ & E); discriminate]).
    + destruct (levelsGiven (Z.to_nat n) m) eqn:LG; [|discriminate].
      destruct (Z.leb_spec n p).
      * destruct scal; simpl.
        -- destruct (find p m) as [l|].
           ++ split; [intros E; exfalso; revert E; apply checkLevel_err|intros (_ & _ & E & _); discriminate].
           ++ split; [intros _; repeat split; auto; lia|reflexivity].
        -- split; [discriminate|]. intros (_ & E & _). discriminate.
      * simpl. assert (F : find p m <> None) by (apply (levelsGiven_find _ _ _ LG); lia).
        destruct (find p m) as [l|]; [|congruence].
        split; [intros E; exfalso; revert E; apply checkLevel_err|intros (? & _); lia].
Qed.

Lemma wls_exact_l t p v : 0 <= p -> exists a, wls = Some a /\
  (check a t p v = Accept <-> v = L2 /\ (p = 0 \/ (p = 1 /\ t = EQUAL))) /\
  (2 <= p -> check a t p v = OutOfRange).
Proof.
  intros P. eexists. split; [reflexivity|]. unfold check; simpl.
  destruct (Z.leb_spec 2 p).
  - rewrite andb_false_r. destruct (Z.eqb_spec p 0); [lia|]. destruct (Z.eqb_spec p 1); [lia|]. simpl.
    split; [|reflexivity]. split; [discriminate|]. intros (_ & [?|[? _]]); lia.
  - split; [|lia]. destruct (Z.eqb_spec p 0) as [->|].
    + simpl. destruct t, v; simpl; intuition (try discriminate; auto; try lia).
    + assert (p = 1) by lia. subst p. simpl. destruct t, v; simpl; intuition (try discriminate; auto; try lia).
Qed.

Lemma hls_exact_l t p v : 0 <= p -> exists a, hls = Some a /\ (check a t p v = Accept <-> v = L2).
Proof.
  intros P. eexists. split; [reflexivity|]. unfold check; simpl.
  destruct (Z.eqb_spec p GeneralLevel); [unfold GeneralLevel in *; lia|]. simpl.
  destruct t, v; simpl; intuition discriminate.
Qed.

(* C31 in full generality: any table the constructor accepts (with at least one level), any
   level, type and evaluation.  The statement's clause on scalarised levels is false
   (C31_scalarised_refuted): a scalarised level still needs its own entry or a general one. *)
Theorem C31_accepts_partial : forall n m scal a t p v, make n m scal = Some a -> 0 <= p -> n <> 0 ->
  (check a t p v = Accept <-> levelAllowed n scal p /\ exists l, entry m p l /\ allows l t v).
Proof. exact check_exact_l. Qed.
Print Assumptions C31_accepts_partial.
Example C31_accepts_ex : exists a,
  make 3 [(0, mkLevel true [L1; L2]); (GeneralLevel, mkLevel false [L2])] true = Some a /\
  check a DOUBLE_SIDED 0 L1 = Accept /\ check a EQUAL 7 L2 = Accept /\ check a LOWER_THAN 2 L2 = RuntimeError /\
  check a EQUAL 1 LINF = RuntimeError.
Proof. eexists. repeat split; reflexivity. Qed.

(* A refusal is the documented std::runtime_error, except for a scalarised level without entry. *)
Theorem C31_refusals : forall n m scal a t p v, make n m scal = Some a -> 0 <= p -> n <> 0 ->
  (check a t p v = OutOfRange <-> 0 < n <= p /\ scal = true /\ find p m = None /\ find GeneralLevel m = None).
Proof. exact check_refuses_l. Qed.
Print Assumptions C31_refusals.
Example C31_refusals_ex : exists a, make 1 [(0, mkLevel true [L2]); (2, mkLevel true [L2])] true = Some a /\
  check a EQUAL 2 L2 = Accept /\ check a EQUAL 1 L2 = OutOfRange.
Proof. eexists. repeat split; reflexivity. Qed.

(* The weighted scheme: level 0, and equalities at level 1; nothing else although it declares
   scalarization. *)
Theorem C31_weighted : forall t p v, 0 <= p -> exists a, wls = Some a /\
  (check a t p v = Accept <-> v = L2 /\ (p = 0 \/ (p = 1 /\ t = EQUAL))) /\
  (2 <= p -> check a t p v = OutOfRange).
Proof. exact wls_exact_l. Qed.
Print Assumptions C31_weighted.

Theorem C31_hierarchical : forall t p v, 0 <= p -> exists a, hls = Some a /\ (check a t p v = Accept <-> v = L2).
Proof. exact hls_exact_l. Qed.
Print Assumptions C31_hierarchical.

(* Scalarised priorities are not accepted: an equality at level 2 of the weighted scheme. *)
Theorem C31_scalarised_refuted : exists a, wls = Some a /\ ab_scal a = true /\
  check a EQUAL 1 L2 = Accept /\ check a EQUAL 2 L2 = OutOfRange.
Proof. eexists. repeat split; reflexivity. Qed.
Print Assumptions C31_scalarised_refuted.

(* A table with zero levels is accepted by the constructor and then never limits anything. *)
Theorem C31_zero_levels_refuted : exists a, make 0 [(GeneralLevel, mkLevel true [L2])] false = Some a /\
  ~ levelAllowed 0 false 5 /\ check a EQUAL 5 L2 = Accept.
Proof.
  eexists. split; [reflexivity|]. split; [|reflexivity].
  unfold levelAllowed, NoLimit, GeneralLevel. intros [?|[?|?]]; try discriminate; lia.
Qed.
Print Assumptions C31_zero_levels_refuted.
