(* C06: Range as an integer interval. [In_range r x] (RangeCountingSpec.v) is
   start <= x < start + dim. *)
Require Import ZArith Bool Lia.
Require Import Verif.RangeModel Verif.RangeCountingModel Verif.RangeCountingSpec.
Local Open Scope Z_scope.

Lemma containsI_spec r i : containsI r i = true <-> In_range r i.
Proof. unfold containsI, In_range, rend. rewrite andb_true_iff, Z.leb_le, Z.ltb_lt. tauto. Qed.

Lemma containsR_spec r o : 0 <= dim o ->
  (0 < dim o -> (containsR r o = true <-> forall x, In_range o x -> In_range r x)) /\
  (dim o = 0 -> (containsR r o = true <-> In_range r (start o))).
Proof.
  intros Ho. unfold containsR. rewrite andb_true_iff, containsI_spec, Z.leb_le. unfold In_range, rend.
  split; intros Hd.
  - split; [intros; lia|]. intros H. pose proof (H (start o) ltac:(lia)). pose proof (H (start o + dim o - 1) ltac:(lia)). lia.
  - lia.
Qed.

Lemma intersects_spec r o : 0 < dim r -> 0 < dim o ->
  (intersects r o = true <-> exists x, In_range r x /\ In_range o x).
Proof.
  intros Hr Ho. unfold intersects. rewrite orb_true_iff, !containsI_spec. unfold In_range. split.
  - intros [H|H]; [exists (start o)|exists (start r)]; lia.
  - intros (x & H). lia.
Qed.

Lemma relative_spec r o : containsR r o = true -> 0 <= dim o ->
  (forall x, In_range (relativeRange r o) x <-> In_range o (x + start r)) /\
  shiftR (relativeRange r o) (start r) = o /\ 0 <= start (relativeRange r o) /\ rend (relativeRange r o) <= dim r.
Proof.
  intros H Ho. unfold containsR in H. rewrite andb_true_iff, containsI_spec, Z.leb_le in H.
  unfold In_range, rend, relativeRange, shiftR in *; simpl. repeat split; try lia.
  destruct o as [s d]; simpl. f_equal. lia.
Qed.

Lemma req_spec a b : req a b = true <-> a = b.
Proof.
  unfold req. rewrite andb_true_iff, !Z.eqb_eq. destruct a, b; simpl.
  split; [intros [-> ->]; auto|intros H; inversion H; auto].
Qed.

(* contains(int) is membership, end() the first integer after. *)
Theorem C06_contains_int : forall r i, containsI r i = true <-> In_range r i.
Proof. exact containsI_spec. Qed.

(* contains(Range) is inclusion for a non-empty argument, and membership of the start
   for an empty one (the documented behaviour, Range.h:36-39). *)
Theorem C06_contains_range : forall r o, 0 <= dim o ->
  (0 < dim o -> (containsR r o = true <-> forall x, In_range o x -> In_range r x)) /\
  (dim o = 0 -> (containsR r o = true <-> In_range r (start o))).
Proof. exact containsR_spec. Qed.

Theorem C06_intersects : forall r o, 0 < dim r -> 0 < dim o ->
  (intersects r o = true <-> exists x, In_range r x /\ In_range o x).
Proof. exact intersects_spec. Qed.

(* relativeRange translates, stays inside [0, dim) and is undone by operator+. *)
Theorem C06_relativeRange : forall r o, containsR r o = true -> 0 <= dim o ->
  (forall x, In_range (relativeRange r o) x <-> In_range o (x + start r)) /\
  shiftR (relativeRange r o) (start r) = o /\ 0 <= start (relativeRange r o) /\ rend (relativeRange r o) <= dim r.
Proof. exact relative_spec. Qed.

Theorem C06_equality : forall a b, req a b = true <-> a = b.
Proof. exact req_spec. Qed.

(* With an empty range, intersects can hold although no integer is common. *)
Theorem C06_intersects_empty_refuted : exists r o, 0 <= dim r /\ 0 <= dim o /\
  intersects r o = true /\ ~ exists x, In_range r x /\ In_range o x.
Proof.
  exists (mkRange 0 5), (mkRange 2 0). split; [simpl; lia|]. split; [simpl; lia|]. split; [reflexivity|].
  intros (x & _ & H). unfold In_range in H. simpl in H. lia.
Qed.

(* An empty range does not contain itself. *)
Theorem C06_empty_not_in_itself_refuted : exists r, 0 <= dim r /\ containsR r r = false.
Proof. exists (mkRange 3 0). split; [simpl; lia|reflexivity]. Qed.

Example C06_example : containsR (mkRange 3 8) (mkRange 5 2) = true /\
  relativeRange (mkRange 3 8) (mkRange 5 2) = mkRange 2 2 /\
  intersects (mkRange 3 8) (mkRange 10 5) = true /\ intersects (mkRange 3 8) (mkRange 11 5) = false.
Proof. repeat split. Qed.

Print Assumptions C06_contains_int.
Print Assumptions C06_contains_range.
Print Assumptions C06_intersects.
Print Assumptions C06_relativeRange.
Print Assumptions C06_equality.
Print Assumptions C06_intersects_empty_refuted.
Print Assumptions C06_empty_not_in_itself_refuted.
